(** C65: the information content of a loss landscape. *)
From Coq Require Ranalysis5.
From Coq Require Import String Reals List Arith Bool ZArith Lia Lra.
From Coquelicot Require Import Coquelicot.
From Coq Require Import List.
From Verif Require Import M_Tensor M_Transpile M_Information P_Hea.
Import ListNotations.
Open Scope R_scope.

Lemma rltb_spec a b : rltb a b = true <-> a < b.
Proof. unfold rltb. destruct (Rlt_dec a b); split; try discriminate; tauto. Qed.
Lemma rltb_false a b : rltb a b = false <-> b <= a.
Proof. unfold rltb. destruct (Rlt_dec a b); split; try discriminate; try reflexivity; lra. Qed.

(** * The variations *)
Lemma skipn_add {A} a b : forall l : list A, skipn (a + b) l = skipn b (skipn a l).
Proof. induction a as [|a IH]; intros l; [reflexivity|]. destruct l as [|x l]; [cbn; rewrite skipn_nil; reflexivity|]. apply IH. Qed.
Lemma firstn_add {A} a b : forall l : list A, firstn (a + b) l = firstn a l ++ firstn b (skipn a l).
Proof. induction a as [|a IH]; intros l; [reflexivity|]. destruct l as [|x l]; [cbn; rewrite firstn_nil; reflexivity|]. cbn. rewrite IH. reflexivity. Qed.
Lemma reshape_spec shapes : forall start row ps, reshape_row shapes start row = Some ps ->
  map fst ps = map fst shapes /\ ((start + total_params shapes <= length row)%nat -> concat (map snd ps) = firstn (total_params shapes) (skipn start row) /\ map (fun p => length (snd p)) ps = map (fun s => numel (snd s)) shapes).
Proof.
  induction shapes as [|[name shape] r IH]; intros start row ps H; cbn [reshape_row] in H; [injection H as <-; split; [reflexivity|intros _; split; reflexivity]|].
  destruct (param_size shape) as [size|] eqn:S; [|discriminate]. assert (ES : size = numel shape) by (destruct shape; [discriminate|]; injection S as <-; reflexivity). cbn [obind] in H. destruct (reshape_row r (start + size) row) as [rest|] eqn:E; [|discriminate]. cbn [obind] in H. injection H as <-.
  destruct (IH _ _ _ E) as [A B]. split; [cbn; congruence|]. intros L. assert (T : total_params ((name, shape) :: r) = (size + total_params r)%nat) by (rewrite ES; reflexivity). rewrite T in *. destruct B as [B1 B2]; [lia|]. split.
  - cbn [map concat snd]. rewrite B1, firstn_add, skipn_add. reflexivity.
  - cbn [map snd]. rewrite B2, firstn_length, skipn_length, ES. f_equal. lia.
Qed.
(** The values handed to the model are, parameter after parameter, the numbers of the variation: none is left out and none is used twice. *)
Theorem C65_variations : forall shapes variations values, reshape_param_variations shapes variations = Some values -> (forall row, In row variations -> length row = total_params shapes) ->
  length values = length variations /\
  forall i row ps, nth_error variations i = Some row -> nth_error values i = Some ps ->
    map fst ps = map fst shapes /\ concat (map snd ps) = row /\ map (fun p => length (snd p)) ps = map (fun s => fold_right Nat.mul 1%nat (snd s)) shapes.
Proof.
  intros shapes variations values H L. unfold reshape_param_variations in H. apply osequence_map_some in H. split; [symmetry; clear - H; induction H; cbn; congruence|].
  induction H as [|row ps vs values E F IH]; intros i row' ps' P Q; [destruct i; discriminate|]. destruct i as [|i]; cbn in P, Q.
  - injection P as <-. injection Q as <-. destruct (reshape_spec _ _ _ _ E) as [A B]. assert (LR := L row (or_introl eq_refl)). destruct B as [B1 B2]; [lia|]. split; [exact A|]. split; [|exact B2]. rewrite B1. cbn [skipn]. apply firstn_all2. lia.
  - apply (IH (fun r I => L r (or_intror I)) i row' ps' P Q).
Qed.
(** With as many rows as the setting asks for, every parameter gets that many values, the multiple of the number of all entries of the parameters. *)
Theorem C65_rows : forall k shapes variations, length variations = n_variations k shapes -> (forall name, ~ In (name, []) shapes) ->
  exists values, reshape_param_variations shapes variations = Some values /\ length values = (k * list_sum (map (fun s => fold_right Nat.mul 1 (snd s)) shapes))%nat.
Proof.
  intros k shapes variations L N. assert (R : forall ss start row, (forall name, ~ In (name, []) ss) -> exists ps, reshape_row ss start row = Some ps).
  { induction ss as [|[name shape] r IH]; intros start row M; [eexists; reflexivity|]. cbn [reshape_row]. destruct shape as [|d shape]; [exfalso; apply (M name); left; reflexivity|]. cbn [param_size obind].
    destruct (IH (start + numel (d :: shape))%nat row) as [ps ->]; [intros x Hx; apply (M x); right; exact Hx|]. eexists. reflexivity. }
  assert (V : forall vs, exists values, osequence (map (reshape_row shapes 0) vs) = Some values /\ length values = length vs).
  { induction vs as [|v vs (values & IH & IL)]; [exists []; auto|]. cbn [map osequence]. destruct (R shapes 0%nat v N) as [ps ->]. rewrite IH. eexists. split; [reflexivity|]. cbn. congruence. }
  destruct (V variations) as (values & E & EL). exists values. split; [exact E|]. rewrite EL, L. reflexivity.
Qed.
(** It fails exactly for models with a parameter of shape (): its size comes out as a floating point number. *)
Theorem C65_scalar : forall shapes variations, variations <> [] -> (reshape_param_variations shapes variations = None <-> exists name, In (name, []) shapes).
Proof.
  intros shapes variations NE. assert (R : forall ss start row, reshape_row ss start row = None <-> exists name, In (name, []) ss).
  { induction ss as [|[name shape] r IH]; intros start row; cbn [reshape_row]; [split; [discriminate|intros (x & [])]|]. destruct shape as [|d shape].
    - cbn. split; [intros _; exists name; left; reflexivity|reflexivity].
    - cbn [param_size obind]. specialize (IH (start + numel (d :: shape))%nat row). destruct (reshape_row r (start + numel (d :: shape)) row); cbn [obind].
      + split; [discriminate|]. intros (x & [X|X]); [discriminate X|]. discriminate (proj2 IH (ex_intro _ x X)).
      + split; [|reflexivity]. intros _. destruct (proj1 IH eq_refl) as [x X]. exists x. right. exact X. }
  unfold reshape_param_variations. split.
  - intros H. destruct variations as [|v vs]; [congruence|]. apply (R shapes 0%nat v). destruct (reshape_row shapes 0 v) eqn:E; [|reflexivity]. exfalso.
    assert (A : forall w, reshape_row shapes 0 w <> None). { intros w W. apply R in W. apply (proj2 (R shapes 0%nat v)) in W. congruence. }
    clear - H A. revert H. generalize (v :: vs) as l. induction l as [|w l IH]; cbn; [discriminate|]. specialize (A w). destruct (reshape_row shapes 0 w); [|congruence]. destruct (osequence (map (reshape_row shapes 0) l)); [discriminate|]. auto.
  - intros H. destruct variations as [|v vs]; [congruence|]. cbn. rewrite (proj2 (R shapes 0%nat v) H). reflexivity.
Qed.

(** * Finite differences *)
Lemma steps_length {A} (l : list A) : length (steps l) = (length l - 1)%nat.
Proof. induction l as [|a [|b l] IH]; [reflexivity|reflexivity|]. cbn [steps length] in *. rewrite IH. lia. Qed.
Lemma steps_map {A B} (f : A -> B) l : steps (map f l) = map (fun ab => (f (fst ab), f (snd ab))) (steps l).
Proof. induction l as [|a [|b l] IH]; [reflexivity|reflexivity|]. cbn [steps map] in *. rewrite IH. reflexivity. Qed.
Lemma combine_map_self {A B C} (f : A -> B) (g : A -> C) l : combine (map f l) (map g l) = map (fun a => (f a, g a)) l.
Proof. induction l as [|a l IH]; [reflexivity|]. cbn. rewrite IH. reflexivity. Qed.
Lemma distance_pos a b : 0 <= distance a b.
Proof. apply sqrt_pos. Qed.
(** There is one difference for each step of the walk; no difference is larger than the Lipschitz constant of the loss. *)
Theorem C65_derivatives : forall losses variations, length losses = length variations ->
  length (randomized_finite_der losses variations) = (length variations - 1)%nat /\
  forall L, 0 <= L -> (forall i j, (j < length variations)%nat -> (i < length variations)%nat -> Rabs (nth j losses 0 - nth i losses 0) <= L * distance (nth i variations []) (nth j variations [])) ->
    Forall (fun d => Rabs d <= L) (randomized_finite_der losses variations).
Proof.
  intros losses variations E. split; [unfold randomized_finite_der; rewrite map_length, combine_length, !steps_length; lia|]. intros L L0 H. unfold randomized_finite_der. apply Forall_forall. intros d I. apply in_map_iff in I as ([[l0 l1] [v0 v1]] & <- & I).
  assert (B : Rabs (l1 - l0) <= L * distance v0 v1).
  { apply In_nth_error in I as [k I]. assert (S1 : forall A (l : list A) k a b d, nth_error (steps l) k = Some (a, b) -> nth k l d = a /\ nth (S k) l d = b /\ (S k < length l)%nat).
    { clear. intros A l. induction l as [|x [|y l] IH]; intros k a b d Q; [destruct k; discriminate|destruct k; discriminate|]. destruct k as [|k]; cbn [steps nth_error] in Q; [injection Q as <- <-; cbn; repeat split; lia|].
      destruct (IH k a b d Q) as (P1 & P2 & P3). cbn [length] in *. repeat split; [exact P1|exact P2|lia]. }
    assert (S2 : forall A B (la : list A) (lb : list B) k a b, nth_error (combine la lb) k = Some (a, b) -> nth_error la k = Some a /\ nth_error lb k = Some b).
    { clear. intros A B la. induction la as [|x la IH]; intros [|y lb] k a b Q; try (destruct k; discriminate). destruct k; cbn in Q |- *; [injection Q as <- <-; auto|]. apply IH, Q. }
    apply S2 in I as [I1 I2]. apply (S1 _ _ _ _ _ 0) in I1 as (A1 & A2 & A3). apply (S1 _ _ _ _ _ []) in I2 as (B1 & B2 & B3). subst. apply H; lia. }
  pose proof (distance_pos v0 v1) as P. unfold Rdiv. rewrite Rabs_mult, (Rabs_right (/ _)) by (apply Rle_ge, Rlt_le, Rinv_0_lt_compat; lra). apply Rmult_le_reg_r with (distance v0 v1 + 1 * / 100000000); [lra|]. rewrite Rmult_assoc, Rinv_l by lra. nra.
Qed.

(** * Discretisation *)
(** With a threshold that is not negative, small differences become 0 and the others their sign. *)
Theorem C65_discretize : forall eps d, 0 <= eps -> (discretize eps d = 1%Z <-> eps < d) /\ (discretize eps d = (-1)%Z <-> d < - eps) /\ (discretize eps d = 0%Z <-> Rabs d <= eps).
Proof.
  intros eps d E. unfold discretize, rltb. destruct (Rlt_dec d (- eps)); [|destruct (Rlt_dec eps d)]; repeat split; intros H; try discriminate H; try lra; try reflexivity.
  - rewrite Rabs_left in H by lra. lra.
  - rewrite Rabs_right in H by lra. lra.
  - apply Rabs_le. lra.
Qed.
Lemma discretize_values eps d : In (discretize eps d) [1; 0; -1]%Z.
Proof. unfold discretize. destruct (rltb d (- eps)); [|destruct (rltb eps d)]; cbn; auto. Qed.

(** * Transitions *)
Definition stays (l : list Z) : nat := length (filter (fun xy => Z.eqb (fst xy) (snd xy)) (steps l)).
(** Every step of the walk is counted once: as one of the six transitions or as no change. *)
Theorem C65_transitions : forall l, (forall z, In z l -> z = 1 \/ z = 0 \/ z = -1)%Z ->
  (stays l + (count_transitions 1%Z 0%Z l + (count_transitions 1%Z (-1)%Z l + (count_transitions 0%Z 1%Z l + (count_transitions 0%Z (-1)%Z l + (count_transitions (-1)%Z 0%Z l + count_transitions (-1)%Z 1%Z l))))) = length l - 1)%nat.
Proof.
  intros l H. rewrite <- steps_length. unfold stays, count_transitions. assert (P : forall xy, In xy (steps l) -> (fst xy = 1 \/ fst xy = 0 \/ fst xy = -1)%Z /\ (snd xy = 1 \/ snd xy = 0 \/ snd xy = -1)%Z).
  { clear - H. induction l as [|a [|b l] IH]; intros xy I; [destruct I|destruct I|]. cbn [steps] in I. destruct I as [<-|I]; [split; apply H; cbn; auto|]. apply IH; [|exact I]. intros z Z. apply H. right. exact Z. }
  revert P. generalize (steps l) as s. induction s as [|[x y] s IH]; intros P; [reflexivity|]. specialize (IH (fun xy I => P xy (or_intror I))). destruct (P (x, y) (or_introl eq_refl)) as [X Y]. cbn [fst snd] in X, Y.
  destruct X as [-> | [-> | ->]], Y as [-> | [-> | ->]]; cbn [filter fst snd Z.eqb Pos.eqb andb length]; lia.
Qed.
Definition probability (a b : Z) (l : list Z) : R := INR (count_transitions a b l) / INR (length l - 1).
Lemma probabilities_nonneg l p : In p (transition_probabilities l) -> 0 <= p.
Proof.
  unfold transition_probabilities. intros I. apply in_map_iff in I as (ab & <- & _). destruct (length l - 1)%nat eqn:E; [cbn [INR]; unfold Rdiv; rewrite Rinv_0, Rmult_0_r; lra|].
  apply Rmult_le_pos; [apply pos_INR|]. apply Rlt_le, Rinv_0_lt_compat. apply lt_0_INR. lia.
Qed.
(** The six probabilities and the share of steps without change add up to one. *)
Theorem C65_probabilities : forall l, (2 <= length l)%nat -> (forall z, In z l -> z = 1 \/ z = 0 \/ z = -1)%Z ->
  rsum (transition_probabilities l) = 1 - INR (stays l) / INR (length l - 1) /\ forall p, In p (transition_probabilities l) -> 0 <= p <= 1.
Proof.
  intros l N H. pose proof (C65_transitions l H) as T. assert (P : 0 < INR (length l - 1)) by (apply lt_0_INR; lia). assert (S : rsum (transition_probabilities l) = 1 - INR (stays l) / INR (length l - 1)).
  { apply (f_equal INR) in T. rewrite !plus_INR in T. unfold transition_probabilities, transition_kinds, rsum. cbn [map fold_right fst snd]. field_simplify_eq; [|lra]. lra. }
  split; [exact S|]. intros p I. split; [exact (probabilities_nonneg l p I)|]. assert (0 <= INR (stays l) / INR (length l - 1)) by (apply Rmult_le_pos; [apply pos_INR|apply Rlt_le, Rinv_0_lt_compat, P]).
  assert (p <= rsum (transition_probabilities l)); [|lra]. assert (Q := probabilities_nonneg l). clear - I Q. induction (transition_probabilities l) as [|a ps IH]; [destruct I|]. unfold rsum in *. cbn [fold_right].
  assert (0 <= fold_right Rplus 0 ps). { clear - Q. induction ps as [|b ps IH]; cbn; [lra|]. assert (0 <= b) by (apply Q; cbn; auto). assert (0 <= fold_right Rplus 0 ps); [|lra]. apply IH. intros p I. apply Q. cbn in *. tauto. }
  destruct I as [<-|I]; [lra|]. assert (0 <= a) by (apply Q; left; reflexivity). specialize (IH I (fun p J => Q p (or_intror J))). lra.
Qed.

(** * The information content *)
Lemma ln_le_sub1 y : 0 < y -> ln y <= y - 1.
Proof. intros H. pose proof (exp_ineq1_le (ln y)) as E. rewrite exp_ln in E by exact H. lra. Qed.
Lemma ln6_1 : 1 < ln 6.
Proof. assert (E : exp 1 < 6) by (pose proof exp_le_3; lra). rewrite <- (ln_exp 1) at 1. apply ln_increasing; [apply exp_pos|exact E]. Qed.
Lemma tangent c p : 0 < c -> 0 <= p -> - p * ln p <= c - p - p * ln c.
Proof.
  intros C [P|<-]; [|lra]. pose proof (ln_le_sub1 (c / p) ltac:(apply Rdiv_lt_0_compat; lra)) as L. rewrite ln_div in L by lra. assert (p * (ln c - ln p) <= p * (c / p - 1)) by (apply Rmult_le_compat_l; lra).
  replace (p * (c / p - 1)) with (c - p) in H by (field; lra). lra.
Qed.
Lemma plogp_nonneg p : 0 <= p <= 1 -> 0 <= - p * ln p.
Proof. intros [[P|<-] Q]; [|lra]. assert (ln p <= 0) by (pose proof (ln_le_sub1 p P); lra). nra. Qed.
(** The entropy of a list of probabilities, with logarithms to base 6. *)
Definition entropy6 (ps : list R) : R := rsum (map (fun p => - p * ln p) ps) / ln 6.
Lemma entropy_bound ps : length ps = 6%nat -> (forall p, In p ps -> 0 <= p) -> rsum ps <= 1 -> entropy6 ps <= 1.
Proof.
  intros L P S. unfold entropy6. pose proof ln6_1. apply Rmult_le_reg_r with (ln 6); [lra|]. unfold Rdiv. rewrite Rmult_assoc, Rinv_l, Rmult_1_r, Rmult_1_l by lra.
  assert (G : rsum (map (fun p => - p * ln p) ps) <= rsum ps * (ln 6 - 1) + INR (length ps) / 6).
  { clear L S. unfold rsum. induction ps as [|p ps IH]; [cbn; lra|]. cbn [map fold_right length]. rewrite S_INR. specialize (IH (fun q I => P q (or_intror I))). pose proof (tangent (1 / 6) p ltac:(lra) (P p (or_introl eq_refl))) as T.
    replace (ln (1 / 6)) with (- ln 6) in T by (unfold Rdiv; rewrite Rmult_1_l, ln_Rinv by lra; reflexivity). lra. }
  rewrite L in G. replace (INR 6) with 6 in G by (cbn; lra). nra.
Qed.
Definition information (derivatives : list R) (eps : R) : R := ic_of (transition_probabilities (map (discretize eps) derivatives)).
Lemma values_ok eps ds z : In z (map (discretize eps) ds) -> (z = 1 \/ z = 0 \/ z = -1)%Z.
Proof. intros I. apply in_map_iff in I as (d & <- & _). pose proof (discretize_values eps d) as V. cbn in V. intuition. Qed.
Lemma probs_zero l : (length l <= 1)%nat -> transition_probabilities l = [0; 0; 0; 0; 0; 0].
Proof. intros L. unfold transition_probabilities. replace (length l - 1)%nat with 0%nat by lia. cbn [map transition_kinds INR]. unfold Rdiv. rewrite Rinv_0, !Rmult_0_r. reflexivity. Qed.
Lemma probs_ok eps ds : let ps := transition_probabilities (map (discretize eps) ds) in length ps = 6%nat /\ (forall p, In p ps -> 0 <= p <= 1) /\ rsum ps <= 1.
Proof.
  intros ps. split; [reflexivity|]. destruct (Nat.le_gt_cases (length (map (discretize eps) ds)) 1) as [L|L].
  - unfold ps. rewrite probs_zero by exact L. split; [intros p; cbn; intuition lra|cbn; lra].
  - destruct (C65_probabilities (map (discretize eps) ds) ltac:(lia) (values_ok eps ds)) as [S P]. split; [exact P|]. unfold ps. rewrite S. assert (0 <= INR (stays (map (discretize eps) ds)) / INR (length (map (discretize eps) ds) - 1)); [|lra].
    apply Rmult_le_pos; [apply pos_INR|]. apply Rlt_le, Rinv_0_lt_compat, lt_0_INR. lia.
Qed.
Lemma rsum_le {A} (f g : A -> R) l : (forall a, In a l -> f a <= g a) -> rsum (map f l) <= rsum (map g l).
Proof. intros H. unfold rsum. induction l as [|a l IH]; cbn; [lra|]. pose proof (H a (or_introl eq_refl)). specialize (IH (fun b I => H b (or_intror I))). lra. Qed.
Lemma rsum_const {A} (c : R) (l : list A) : rsum (map (fun _ => c) l) = INR (length l) * c.
Proof. unfold rsum. induction l as [|a l IH]; [cbn; lra|]. cbn [map fold_right length]. rewrite IH, S_INR. lra. Qed.
Lemma rsum_plus {A} (f g : A -> R) l : rsum (map (fun a => f a + g a) l) = rsum (map f l) + rsum (map g l).
Proof. unfold rsum. induction l as [|a l IH]; cbn; [lra|]. rewrite IH. lra. Qed.
(** It is the entropy of the six probabilities, up to 0.0031, and it is between 0 and 1. *)
Theorem C65_information : forall derivatives epsilons, length (calculate_IC derivatives epsilons) = length epsilons /\
  forall i eps ic, nth_error epsilons i = Some eps -> nth_error (calculate_IC derivatives epsilons) i = Some ic -> 0 <= ic <= 1 /\
    let E := entropy6 (transition_probabilities (map (discretize eps) derivatives)) in ic <= E <= ic + 6 * (1 / 10000 * ln 10000) / ln 6.
Proof.
  intros ds es. split; [apply map_length|]. intros i eps ic A B. unfold calculate_IC in B. rewrite nth_error_map, A in B. injection B as <-. destruct (probs_ok eps ds) as (L & P & S). set (ps := transition_probabilities (map (discretize eps) ds)) in *. cbv zeta. pose proof ln6_1 as L6.
  assert (I0 : 0 < / ln 6) by (apply Rinv_0_lt_compat; lra). assert (C : 1 <= ln 10000). { apply Rle_trans with (ln 6); [lra|]. apply Rlt_le, ln_increasing; lra. }
  assert (T : forall p, In p ps -> 0 <= (if rltb (1 / 10000) p then - p * ln p else 0) <= - p * ln p /\ - p * ln p <= (if rltb (1 / 10000) p then - p * ln p else 0) + 1 / 10000 * ln 10000).
  { intros p I. pose proof (plogp_nonneg p (P p I)) as N. destruct (rltb (1 / 10000) p) eqn:R; [split; nra|]. apply rltb_false in R. split; [lra|]. destruct (P p I) as [P0 _]. pose proof (tangent (1 / 10000) p ltac:(lra) P0) as T.
    replace (ln (1 / 10000)) with (- ln 10000) in T by (unfold Rdiv; rewrite Rmult_1_l, ln_Rinv by lra; reflexivity). nra. }
  assert (A1 : 0 <= rsum (map (fun p => if rltb (1 / 10000) p then - p * ln p else 0) ps)). { assert (Q : rsum (map (fun _ : R => 0) ps) = 0) by (rewrite rsum_const; lra). rewrite <- Q at 1. apply rsum_le. intros p I. apply T, I. }
  assert (A2 : rsum (map (fun p => if rltb (1 / 10000) p then - p * ln p else 0) ps) <= rsum (map (fun p => - p * ln p) ps)). { apply rsum_le. intros p I. apply T, I. }
  assert (A3 : rsum (map (fun p => - p * ln p) ps) <= rsum (map (fun p => if rltb (1 / 10000) p then - p * ln p else 0) ps) + 6 * (1 / 10000 * ln 10000)).
  { replace (6 * (1 / 10000 * ln 10000)) with (rsum (map (fun _ : R => 1 / 10000 * ln 10000) ps)). 2: { rewrite rsum_const, L. replace (INR 6) with 6 by (cbn; lra). reflexivity. } rewrite <- rsum_plus. apply rsum_le. intros p I. apply T, I. }
  assert (EB : entropy6 ps <= 1) by (apply entropy_bound; [exact L|intros p I; apply P, I|exact S]). unfold ic_of, entropy6 in *. unfold Rdiv in *. repeat split.
  - apply Rmult_le_pos; lra.
  - apply Rle_trans with (rsum (map (fun p => - p * ln p) ps) * / ln 6); [apply Rmult_le_compat_r; lra|exact EB].
  - apply Rmult_le_compat_r; lra.
  - rewrite <- Rmult_plus_distr_r. apply Rmult_le_compat_r; lra.
Qed.
Lemma calculate_eq ds es : calculate_IC ds es = map (information ds) es. Proof. reflexivity. Qed.
(** A threshold that no difference exceeds leaves no information. *)
Theorem C65_flat : forall derivatives eps, Forall (fun d => Rabs d <= eps) derivatives -> information derivatives eps = 0.
Proof.
  intros ds eps H. assert (Z0 : map (discretize eps) ds = map (fun _ => 0%Z) ds).
  { induction H as [|d ds D H IH]; [reflexivity|]. cbn. rewrite IH. f_equal. apply C65_discretize; [|exact D]. pose proof (Rabs_pos d). lra. }
  unfold information. rewrite Z0. assert (C : forall a b, (a, b) <> (0, 0)%Z -> count_transitions a b (map (fun _ : R => 0%Z) ds) = 0%nat).
  { intros a b N. unfold count_transitions. rewrite steps_map. replace (filter _ _) with (@nil (Z * Z)); [reflexivity|]. symmetry. generalize (steps ds) as s. induction s as [|x s IH]; [reflexivity|]. cbn [map filter fst snd].
    destruct (Z.eqb_spec 0 a); [|exact IH]. destruct (Z.eqb_spec 0 b); [|exact IH]. subst. congruence. }
  unfold transition_probabilities, transition_kinds. cbn [map fst snd]. rewrite !C by discriminate. cbn [INR]. unfold ic_of, rsum. cbn [map fold_right]. assert (Q : forall x, 0 / x = 0) by (intros; unfold Rdiv; ring). rewrite !Q.
  destruct (rltb (1 / 10000) 0) eqn:R; [apply rltb_spec in R; lra|]. unfold Rdiv. ring.
Qed.
(** Scaling and shifting the loss, with the thresholds scaled too, or changing its sign, does not change the information content. *)
Lemma count_opp a b l : count_transitions a b (map Z.opp l) = count_transitions (- a) (- b) l.
Proof.
  unfold count_transitions. rewrite steps_map. generalize (steps l) as s. induction s as [|[x y] s IH]; [reflexivity|]. cbn [map filter fst snd].
  replace (Z.eqb (- x) a) with (Z.eqb x (- a)) by (apply eq_true_iff_eq; rewrite !Z.eqb_eq; lia). replace (Z.eqb (- y) b) with (Z.eqb y (- b)) by (apply eq_true_iff_eq; rewrite !Z.eqb_eq; lia).
  destruct (Z.eqb x (- a) && Z.eqb y (- b)); cbn [length]; rewrite IH; reflexivity.
Qed.
Lemma der_affine c k losses vs : randomized_finite_der (map (fun x => c * x + k) losses) vs = map (fun d => c * d) (randomized_finite_der losses vs).
Proof.
  unfold randomized_finite_der. rewrite steps_map, map_map. generalize (steps losses) as a, (steps vs) as b. induction a as [|[l0 l1] a IH]; intros [|[v0 v1] b]; [reflexivity|reflexivity|reflexivity|]. cbn [map combine fst snd]. rewrite IH. f_equal. unfold Rdiv. ring.
Qed.
Theorem C65_scale : forall c k losses variations epsilons, 0 < c ->
  calculate_IC (randomized_finite_der (map (fun x => c * x + k) losses) variations) (map (fun e => c * e) epsilons) = calculate_IC (randomized_finite_der losses variations) epsilons.
Proof.
  intros c k losses vs es C. rewrite der_affine. rewrite !calculate_eq, map_map. apply map_ext. intros e. unfold information. rewrite map_map. f_equal. f_equal. apply map_ext. intros d.
  unfold discretize, rltb. destruct (Rlt_dec (c * d) (- (c * e))), (Rlt_dec d (- e)); try reflexivity; try nra. destruct (Rlt_dec (c * e) (c * d)), (Rlt_dec e d); try reflexivity; nra.
Qed.
Theorem C65_sign : forall losses variations epsilons, Forall (fun e => 0 <= e) epsilons ->
  calculate_IC (randomized_finite_der (map Ropp losses) variations) epsilons = calculate_IC (randomized_finite_der losses variations) epsilons.
Proof.
  intros losses vs es E. replace (map Ropp losses) with (map (fun x => -1 * x + 0) losses) by (apply map_ext; intros; ring). rewrite der_affine. rewrite !calculate_eq. apply map_ext_in. intros e I. rewrite Forall_forall in E. specialize (E e I). unfold information. rewrite map_map.
  set (ds := randomized_finite_der losses vs). replace (map (fun x => discretize e (-1 * x)) ds) with (map Z.opp (map (discretize e) ds)).
  2: { rewrite map_map. apply map_ext. intros d. unfold discretize, rltb. destruct (Rlt_dec d (- e)), (Rlt_dec (-1 * d) (- e)), (Rlt_dec e d), (Rlt_dec e (-1 * d)); try reflexivity; lra. }
  unfold transition_probabilities, transition_kinds. rewrite map_length. cbn [map fst snd]. rewrite !count_opp. cbn [Z.opp]. unfold ic_of, rsum. cbn [map fold_right]. f_equal. ring.
Qed.

(** * Extremes *)
Lemma argmax_spec l : (argmax l = None <-> l = []) /\ forall m, argmax l = Some m -> In m l /\ forall x, In x l -> fst x <= fst m.
Proof.
  induction l as [|a l [I1 I2]]; [split; [tauto|discriminate]|]. cbn [argmax]. destruct (argmax l) as [b|] eqn:E.
  - destruct (I2 b eq_refl) as [B1 B2]. unfold rltb. destruct (Rlt_dec (fst a) (fst b)) as [L|L]; (split; [split; discriminate|]); intros m [= <-].
    + split; [right; exact B1|]. intros x [<-|X]; [lra|]. apply B2, X.
    + split; [left; reflexivity|]. intros x [<-|X]; [lra|]. specialize (B2 x X). lra.
  - split; [split; discriminate|]. intros m [= <-]. rewrite (proj1 I1 eq_refl). split; [left; reflexivity|]. intros x [<-|[]]. lra.
Qed.
Lemma in_combine_map {A B} (f : A -> B) l : combine (map f l) l = map (fun a => (f a, a)) l.
Proof. rewrite <- (map_id l) at 2. apply combine_map_self. Qed.
(** max_IC: the largest information content and a threshold that has it. *)
Theorem C65_max : forall derivatives epsilons, (max_IC derivatives epsilons = None <-> epsilons = []) /\
  forall m e, max_IC derivatives epsilons = Some (m, e) -> In e epsilons /\ m = information derivatives e /\ forall e', In e' epsilons -> information derivatives e' <= m.
Proof.
  intros ds es. unfold max_IC. rewrite calculate_eq, in_combine_map. destruct (argmax_spec (map (fun a => (information ds a, a)) es)) as [A B]. split.
  - rewrite A. split; [|intros ->; reflexivity]. intros H. apply map_eq_nil in H. exact H.
  - intros m e H. destruct (B _ H) as [B1 B2]. apply in_map_iff in B1 as (x & [= <- <-] & I). split; [exact I|]. split; [reflexivity|]. intros e' I'. apply (B2 (information ds e', e')). apply in_map_iff. exists e'. auto.
Qed.
Lemma rmin_spec l : (rmin_list l = None <-> l = []) /\ forall m, rmin_list l = Some m -> In m l /\ forall x, In x l -> m <= x.
Proof.
  induction l as [|a l [I1 I2]]; [split; [tauto|discriminate]|]. cbn [rmin_list]. destruct (rmin_list l) as [b|] eqn:E.
  - destruct (I2 b eq_refl) as [B1 B2]. split; [split; discriminate|]. intros m [= <-]. split.
    + unfold Rmin. destruct (Rle_dec a b); [left; reflexivity|right; exact B1].
    + intros x [<-|X]; [apply Rmin_l|]. apply Rle_trans with b; [apply Rmin_r|apply B2, X].
  - split; [split; discriminate|]. intros m [= <-]. rewrite (proj1 I1 eq_refl). split; [left; reflexivity|]. intros x [<-|[]]. lra.
Qed.
(** sensitivity_IC: the smallest threshold with less information than eta; there must be one. *)
Theorem C65_sensitivity : forall derivatives epsilons eta, (sensitivity_IC derivatives epsilons eta = None <-> forall e, In e epsilons -> eta <= information derivatives e) /\
  forall e, sensitivity_IC derivatives epsilons eta = Some e -> In e epsilons /\ information derivatives e < eta /\ forall e', In e' epsilons -> information derivatives e' < eta -> e <= e'.
Proof.
  intros ds es eta. unfold sensitivity_IC. rewrite calculate_eq, in_combine_map. destruct (rmin_spec (map snd (filter (fun ie => rltb (fst ie) eta) (map (fun a => (information ds a, a)) es)))) as [A B].
  assert (IN : forall e, In e (map snd (filter (fun ie => rltb (fst ie) eta) (map (fun a => (information ds a, a)) es))) <-> In e es /\ information ds e < eta).
  { intros e. rewrite in_map_iff. split.
    - intros ([i x] & <- & I). apply filter_In in I as [I R]. apply in_map_iff in I as (y & [= <- <-] & I). cbn [fst snd] in *. apply rltb_spec in R. auto.
    - intros [I R]. exists (information ds e, e). split; [reflexivity|]. apply filter_In. split; [apply in_map_iff; exists e; auto|]. apply rltb_spec. exact R. }
  split.
  - rewrite A. split.
    + intros H e I. destruct (Rlt_dec (information ds e) eta) as [L|]; [|lra]. exfalso. apply (in_nil (a := e)). rewrite <- H. apply IN. auto.
    + intros H. destruct (map snd _) as [|e r] eqn:E; [reflexivity|]. destruct (proj1 (IN e) (or_introl eq_refl)) as [I L]. specialize (H e I). lra.
  - intros e H. destruct (B e H) as [B1 B2]. apply IN in B1 as [I L]. repeat split; auto. intros e' I' L'. apply B2, IN. auto.
Qed.
(** With a threshold above the Lipschitz constant of the loss there is one for every eta > 0. *)
Theorem C65_sensitivity_defined : forall derivatives epsilons eta e, In e epsilons -> Forall (fun d => Rabs d <= e) derivatives -> 0 < eta -> exists s, sensitivity_IC derivatives epsilons eta = Some s /\ s <= e.
Proof.
  intros ds es eta e I F H. destruct (C65_sensitivity ds es eta) as [A B]. pose proof (C65_flat ds e F) as Z0. destruct (sensitivity_IC ds es eta) as [s|] eqn:E.
  - exists s. split; [reflexivity|]. destruct (B s eq_refl) as (_ & _ & M). apply M; [exact I|lra].
  - specialize (proj1 A eq_refl e I). lra.
Qed.

(** Each finite derivative and each count, position by position. *)
Lemma steps_nth {A} (l : list A) d : forall i, (S i < length l)%nat -> nth i (steps l) (d, d) = (nth i l d, nth (S i) l d).
Proof. induction l as [|a [|b l] IH]; intros [|i] L; cbn [length] in *; try lia; [reflexivity|]. change (nth i (steps (b :: l)) (d, d) = (nth i (b :: l) d, nth (S i) (b :: l) d)). apply IH. cbn [length]. lia. Qed.
Theorem C65_derivative_values : forall losses variations i, length losses = length variations -> (S i < length variations)%nat ->
  nth i (randomized_finite_der losses variations) 0 = (nth (S i) losses 0 - nth i losses 0) / (distance (nth i variations []) (nth (S i) variations []) + 1 / 10 ^ 8).
Proof.
  intros ls vs i L I. unfold randomized_finite_der. set (f := fun lv : (R * R) * (list R * list R) => let '((l0, l1), (v0, v1)) := lv in (l1 - l0) / (distance v0 v1 + 1 / 100000000)).
  assert (LC : (i < length (combine (steps ls) (steps vs)))%nat) by (rewrite combine_length, !steps_length; lia).
  rewrite (nth_indep _ 0 (f ((0, 0), ([], [])))) by (rewrite map_length; exact LC). rewrite map_nth. rewrite combine_nth by (rewrite !steps_length; lia). rewrite (steps_nth ls 0), (steps_nth vs []) by lia. unfold f. replace (10 ^ 8) with 100000000 by ring. reflexivity.
Qed.
Theorem C65_counts : forall a b l, count_transitions a b l = length (filter (fun i => Z.eqb (nth i l 0%Z) a && Z.eqb (nth (S i) l 0%Z) b) (seq 0 (length l - 1))).
Proof.
  intros a b l. unfold count_transitions. rewrite <- steps_length. assert (E : steps l = map (fun i => (nth i l 0%Z, nth (S i) l 0%Z)) (seq 0 (length (steps l)))).
  { set (g := fun i => (nth i l 0%Z, nth (S i) l 0%Z)). apply (nth_ext _ _ (0%Z, 0%Z) (g 0%nat)); [rewrite map_length, seq_length; reflexivity|]. intros i I. rewrite steps_nth by (rewrite steps_length in I; lia). rewrite map_nth, seq_nth by exact I. reflexivity. }
  rewrite E at 1. generalize (seq 0 (length (steps l))). intros s. induction s as [|i s IH]; [reflexivity|]. cbn [map filter fst snd]. destruct (Z.eqb (nth i l 0%Z) a && Z.eqb (nth (S i) l 0%Z) b); cbn [length]; rewrite IH; reflexivity.
Qed.
(** The losses are those of the variations, in order. *)
Theorem C65_losses : forall loss shapes variations losses, batched_loss loss shapes variations = Some losses -> exists values, reshape_param_variations shapes variations = Some values /\ losses = map loss values.
Proof. intros loss shapes vs ls H. unfold batched_loss in H. destruct (reshape_param_variations shapes vs) as [values|]; [|discriminate H]. injection H as <-. eauto. Qed.

(** * The probability q *)
Lemma H_at_most_1 x : 0 < x < 1 / 4 -> H_curve x <= 1.
Proof.
  intros X. pose proof ln6_1. unfold H_curve. apply Rmult_le_reg_r with (ln 6); [lra|]. replace ((-4 * x * ln x / ln 6 - 2 * (1 / 2 - 2 * x) * ln (1 / 2 - 2 * x) / ln 6) * ln 6) with (4 * (- x * ln x) + 2 * (- (1 / 2 - 2 * x) * ln (1 / 2 - 2 * x))) by (field; lra).
  pose proof (tangent (1 / 6) x ltac:(lra) ltac:(lra)) as A. pose proof (tangent (1 / 6) (1 / 2 - 2 * x) ltac:(lra) ltac:(lra)) as B. replace (ln (1 / 6)) with (- ln 6) in * by (unfold Rdiv; rewrite Rmult_1_l, ln_Rinv by lra; reflexivity). lra.
Qed.
Definition dH (x : R) : R := 4 * (ln (1 / 2 - 2 * x) - ln x) / ln 6.
Lemma H_derive x : 0 < x < 1 / 4 -> is_derive H_curve x (dH x).
Proof. intros X. pose proof ln6_1. unfold H_curve, dH. auto_derive; [repeat split; lra|]. change (1 / 2 + - (2 * x)) with (1 / 2 - 2 * x). field. repeat split; lra. Qed.
Lemma H_increasing a b : 0 < a -> a < b -> b <= 1 / 6 -> H_curve a < H_curve b.
Proof.
  intros A B C. destruct (MVT_gen H_curve a b dH) as (c & [C1 C2] & E).
  - intros x X. rewrite Rmin_left, Rmax_right in X by lra. apply H_derive. lra.
  - intros x X. rewrite Rmin_left, Rmax_right in X by lra. apply continuity_pt_filterlim, (ex_derive_continuous H_curve). exists (dH x). apply H_derive. lra.
  - rewrite Rmin_left, Rmax_right in * by lra. pose proof ln6_1. assert (D : 0 <= dH c).
    { unfold dH. apply Rmult_le_pos; [|apply Rlt_le, Rinv_0_lt_compat; lra]. assert (ln c <= ln (1 / 2 - 2 * c)); [|lra]. destruct (Req_dec c (1 / 6)) as [->|]; [right; f_equal; lra|]. apply Rlt_le, ln_increasing; lra. }
    destruct (Rle_lt_or_eq_dec (H_curve a) (H_curve b) ltac:(nra)) as [|EQ]; [assumption|exfalso].
    (* the curve would be constant between a and the middle *)
    set (m := (a + b) / 2). assert (M : a < m < b) by (unfold m; lra).
    destruct (MVT_gen H_curve a m dH) as (c1 & [D1 D2] & E1).
    { intros x X. rewrite Rmin_left, Rmax_right in X by lra. apply H_derive. lra. }
    { intros x X. rewrite Rmin_left, Rmax_right in X by lra. apply continuity_pt_filterlim, (ex_derive_continuous H_curve). exists (dH x). apply H_derive. lra. }
    destruct (MVT_gen H_curve m b dH) as (c2 & [D3 D4] & E2).
    { intros x X. rewrite Rmin_left, Rmax_right in X by lra. apply H_derive. lra. }
    { intros x X. rewrite Rmin_left, Rmax_right in X by lra. apply continuity_pt_filterlim, (ex_derive_continuous H_curve). exists (dH x). apply H_derive. lra. }
    rewrite Rmin_left in D1 by lra. rewrite Rmax_right in D2 by lra. rewrite Rmin_left in D3 by lra. rewrite Rmax_right in D4 by lra.
    assert (P1 : 0 < dH c1). { unfold dH. apply Rmult_lt_0_compat; [|apply Rinv_0_lt_compat; lra]. assert (ln c1 < ln (1 / 2 - 2 * c1)); [|lra]. apply ln_increasing; lra. }
    assert (P2 : 0 <= dH c2). { unfold dH. apply Rmult_le_pos; [|apply Rlt_le, Rinv_0_lt_compat; lra]. assert (ln c2 <= ln (1 / 2 - 2 * c2)); [|lra]. destruct (Req_dec c2 (1 / 6)) as [->|]; [right; f_equal; lra|]. apply Rlt_le, ln_increasing; lra. }
    nra.
Qed.
(** Beyond 1/6 the curve falls more slowly than it rises before. *)
Lemma H_beyond t : 0 < t < 1 / 100 -> H_curve (1 / 6 - 3 * t) < H_curve (1 / 6 + t).
Proof.
  intros T. set (f := fun s => H_curve (1 / 6 + s) - H_curve (1 / 6 - 3 * s)). set (df := fun s => dH (1 / 6 + s) + 3 * dH (1 / 6 - 3 * s)).
  assert (FD : forall s, 0 <= s <= t -> is_derive f s (df s)).
  { intros s S. unfold f, df. evar_last. apply (is_derive_minus (fun s => H_curve (1 / 6 + s)) (fun s => H_curve (1 / 6 - 3 * s)) s (1 * dH (1 / 6 + s)) (-3 * dH (1 / 6 - 3 * s))).
    - apply (is_derive_comp H_curve (fun s => 1 / 6 + s)); [apply H_derive; lra|]. auto_derive; [exact I|ring].
    - apply (is_derive_comp H_curve (fun s => 1 / 6 - 3 * s)); [apply H_derive; lra|]. auto_derive; [exact I|ring].
    - unfold minus, plus, opp. cbn. ring. }
  destruct (MVT_gen f 0 t df) as (c & [C1 C2] & E).
  - intros x X. rewrite Rmin_left, Rmax_right in X by lra. apply FD. lra.
  - intros x X. rewrite Rmin_left, Rmax_right in X by lra. apply continuity_pt_filterlim, (ex_derive_continuous f). exists (df x). apply FD. lra.
  - rewrite Rmin_left, Rmax_right in * by lra. assert (F0 : f 0 = 0) by (unfold f; replace (1 / 6 + 0) with (1 / 6 - 3 * 0) by lra; lra).
    assert (G : forall s, 0 <= s <= t -> 0 <= df s /\ (0 < s -> 0 < df s)).
    { intros s S. pose proof ln6_1. unfold df, dH. replace (1 / 2 - 2 * (1 / 6 + s)) with (1 / 6 - 2 * s) by lra. replace (1 / 2 - 2 * (1 / 6 - 3 * s)) with (1 / 6 + 6 * s) by lra.
      assert (A : ln (1 / 6 + s) - ln (1 / 6 - 2 * s) <= ln (1 / 6 + 6 * s) - ln (1 / 6 - 3 * s)).
      { rewrite <- !ln_div by lra. destruct (Req_dec s 0) as [->|N]; [right; f_equal; lra|]. apply Rlt_le, ln_increasing; [apply Rdiv_lt_0_compat; lra|]. apply Rmult_lt_reg_r with ((1 / 6 - 2 * s) * (1 / 6 - 3 * s)); [nra|]. field_simplify; [|lra|lra]. nra. }
      assert (B : ln (1 / 6 - 3 * s) <= ln (1 / 6 + 6 * s)). { destruct (Req_dec s 0) as [->|N]; [right; f_equal; lra|]. apply Rlt_le, ln_increasing; lra. }
      assert (I0 : 0 < / ln 6) by (apply Rinv_0_lt_compat; lra). unfold Rdiv. split.
      - apply Rle_trans with ((4 * (ln (1 * / 6 - 2 * s) - ln (1 * / 6 + s)) + 3 * (4 * (ln (1 * / 6 + 6 * s) - ln (1 * / 6 - 3 * s)))) * / ln 6); [|right; ring]. unfold Rdiv in *. apply Rmult_le_pos; lra.
      - intros S0. assert (B' : ln (1 * / 6 - 3 * s) < ln (1 * / 6 + 6 * s)) by (apply ln_increasing; lra). apply Rlt_le_trans with ((4 * (ln (1 * / 6 - 2 * s) - ln (1 * / 6 + s)) + 3 * (4 * (ln (1 * / 6 + 6 * s) - ln (1 * / 6 - 3 * s)))) * / ln 6); [|right; ring]. unfold Rdiv in *. apply Rmult_lt_0_compat; lra. }
    assert (NN : 0 <= f t) by (rewrite F0 in E; destruct (G c ltac:(lra)) as [G0 _]; nra).
    destruct NN as [NN|NN]; [unfold f in NN; lra|exfalso].
    destruct (MVT_gen f (t / 2) t df) as (c2 & [D1 D2] & E2).
    { intros x X. rewrite Rmin_left, Rmax_right in X by lra. apply FD. lra. }
    { intros x X. rewrite Rmin_left, Rmax_right in X by lra. apply continuity_pt_filterlim, (ex_derive_continuous f). exists (df x). apply FD. lra. }
    destruct (MVT_gen f 0 (t / 2) df) as (c1 & [D3 D4] & E1).
    { intros x X. rewrite Rmin_left, Rmax_right in X by lra. apply FD. lra. }
    { intros x X. rewrite Rmin_left, Rmax_right in X by lra. apply continuity_pt_filterlim, (ex_derive_continuous f). exists (df x). apply FD. lra. }
    rewrite Rmin_left in D1 by lra. rewrite Rmax_right in D2 by lra. rewrite Rmin_left in D3 by lra. rewrite Rmax_right in D4 by lra. destruct (G c1 ltac:(lra)) as [G1 _]. destruct (G c2 ltac:(lra)) as [_ G2]. specialize (G2 ltac:(lra)). nra.
Qed.

Definition grid (i : nat) : R := 1 / 1000 + INR i * ((16667 / 100000 - 1 / 1000) / 9999).
Lemma grid_list : exists N, INR N = 9999 /\ q_grid = map grid (seq 0 (S N)).
Proof. exists (Nat.pred 10000). split; [rewrite INR_IZR_INZ; replace (Z.of_nat (Nat.pred 10000)) with 9999%Z by (vm_compute; reflexivity); reflexivity|]. unfold q_grid. replace (S (Nat.pred 10000)) with 10000%nat by (vm_compute; reflexivity). reflexivity. Qed.
Definition step_width : R := (16667 / 100000 - 1 / 1000) / 9999.
Lemma grid_S i : grid (S i) = grid i + step_width.
Proof. unfold grid, step_width. rewrite S_INR. lra. Qed.
Lemma grid_pos i : 1 / 1000 <= grid i.
Proof. unfold grid. pose proof (pos_INR i). assert (0 <= INR i * ((16667 / 100000 - 1 / 1000) / 9999)) by (apply Rmult_le_pos; lra). lra. Qed.
Lemma grid_mono N i : INR N = 9999 -> (i < N)%nat -> H_curve (grid i) < H_curve (grid (S i)).
Proof.
  intros E L. pose proof (grid_pos i). destruct (Nat.eq_dec (S i) N) as [<-|NE].
  - assert (G1 : grid (S i) = 1 / 6 + 1 / 300000) by (unfold grid; rewrite E; lra). assert (G0 : grid i = grid (S i) - step_width) by (rewrite grid_S; lra). rewrite G1 in *.
    apply Rlt_trans with (H_curve (1 / 6 - 3 * (1 / 300000))); [|apply H_beyond; lra]. assert (S0 : step_width = 16567 / 999900000) by (unfold step_width; field). apply H_increasing; [lra|rewrite G0, S0; lra|lra].
  - assert (L2 : (S (S i) <= N)%nat) by lia. apply le_INR in L2. rewrite E, !S_INR in L2. apply H_increasing; [lra|rewrite grid_S; unfold step_width; lra|]. unfold grid. rewrite S_INR. lra.
Qed.
Lemma argmin_spec f : forall l a, In (argmin_by f a l) (a :: l) /\ forall x, In x (a :: l) -> f (argmin_by f a l) <= f x.
Proof.
  induction l as [|b l IH]; intros a; [split; [left; reflexivity|intros x [<-|[]]; apply Rle_refl]|]. cbn [argmin_by]. unfold rltb. destruct (Rlt_dec (f b) (f a)) as [L|L].
  - destruct (IH b) as [I1 I2]. split; [right; exact I1|]. intros x [<-|X]; [|apply I2, X]. specialize (I2 b (or_introl eq_refl)). lra.
  - destruct (IH a) as [I1 I2]. split; [destruct I1 as [I1|I1]; [left; exact I1|right; right; exact I1]|]. intros x [<-|[<-|X]]; [apply I2; left; reflexivity| |apply I2; right; exact X]. specialize (I2 a (or_introl eq_refl)). lra.
Qed.
Lemma q_in H : exists N k, INR N = 9999 /\ (k <= N)%nat /\ q_value H = grid k /\ forall i, (i <= N)%nat -> Rabs (H_curve (grid k) - H) <= Rabs (H_curve (grid i) - H).
Proof.
  destruct grid_list as (N & E & G). exists N. unfold q_value. rewrite G. cbn [seq map hd tl]. destruct (argmin_spec (fun x => Rabs (H_curve x - H)) (map grid (seq 1 N)) (grid 0)) as [A B]. change (grid 0 :: map grid (seq 1 N)) with (map grid (seq 0 (S N))) in *.
  apply in_map_iff in A as (k & K & I). apply in_seq in I. exists k. split; [exact E|]. split; [lia|]. split; [symmetry; exact K|]. intros i L. rewrite K. apply (B (grid i)). apply in_map, in_seq. lia.
Qed.
Lemma grid_chain N : INR N = 9999 -> forall j i, (i < j <= N)%nat -> H_curve (grid i) < H_curve (grid j).
Proof.
  intros E. induction j as [|j IH]; intros i L; [lia|]. destruct (Nat.eq_dec i j) as [->|]; [apply (grid_mono N); [exact E|lia]|]. apply Rlt_trans with (H_curve (grid j)); [apply IH; lia|apply (grid_mono N); [exact E|lia]].
Qed.
(** For an information content that the equation H(x) = 4h(x) + 2h(1/2 - 2x) reaches on the grid, q is the solution up to one step of the grid. *)
Theorem C65_q : forall H, H_curve (1 / 1000) <= H <= 1 -> exists x, 1 / 1000 <= x <= 1 / 6 /\ H_curve x = H /\ (forall y, 1 / 1000 <= y <= 1 / 6 -> H_curve y = H -> y = x) /\ Rabs (q_value H - x) <= 17 / 1000000.
Proof.
  intros H [H0 H1]. assert (H6 : H_curve (1 / 6) = 1). { pose proof ln6_1. unfold H_curve. replace (1 / 2 - 2 * (1 / 6)) with (1 / 6) by lra. replace (ln (1 / 6)) with (- ln 6) by (unfold Rdiv; rewrite Rmult_1_l, ln_Rinv by lra; reflexivity). field. lra. }
  assert (X : exists x, 1 / 1000 <= x <= 1 / 6 /\ H_curve x = H).
  { destruct (Ranalysis5.f_interv_is_interv H_curve (1 / 1000) (1 / 6) H) as (x & X1 & X2); [lra|rewrite H6; lra| |exists x; auto].
    intros x X. apply continuity_pt_filterlim, (ex_derive_continuous H_curve). exists (dH x). apply H_derive. lra. }
  destruct X as (x & X & E). exists x. split; [exact X|]. split; [exact E|]. split.
  { intros y Y F. destruct (Rtotal_order y x) as [L|[L|L]]; [|exact L|]; [pose proof (H_increasing y x ltac:(lra) L ltac:(lra))|pose proof (H_increasing x y ltac:(lra) L ltac:(lra))]; lra. }
  destruct (q_in H) as (N & k & EN & K & -> & M). assert (S0 : step_width = 16567 / 999900000) by (unfold step_width; field). apply Rabs_le. destruct (Rlt_dec (grid k) (x - step_width)) as [L|L]; [exfalso|destruct (Rlt_dec (x + step_width) (grid k)) as [L'|L']; [exfalso|split; lra]].
  - assert (KN : (k < N)%nat). { destruct (Nat.eq_dec k N) as [->|]; [|lia]. exfalso. unfold grid in L. rewrite EN in L. lra. }
    pose proof (grid_mono N k EN KN) as G. specialize (M (S k) KN). pose proof (grid_pos k). assert (H_curve (grid (S k)) < H) by (rewrite <- E; apply H_increasing; try rewrite grid_S; lra). rewrite !Rabs_left in M by lra. lra.
  - destruct k as [|k]; [unfold grid in L'; cbn [INR] in L'; lra|]. pose proof (grid_mono N k EN ltac:(lia)) as G. specialize (M k ltac:(lia)). rewrite grid_S in L'. assert (HK : H < H_curve (grid k)).
    { rewrite <- E. apply H_increasing; [lra|lra|]. assert (L2 : (S k <= N)%nat) by lia. apply le_INR in L2. rewrite S_INR, EN in L2. unfold grid. lra. }
    rewrite !Rabs_right in M by lra. lra.
Qed.
(** q is at most 1/6, as the probability of four of six transitions must be, unless it is the last point of the grid, which is larger. *)
Lemma q_range H : 1 / 1000 <= q_value H /\ (q_value H <= 1 / 6 \/ q_value H = 16667 / 100000).
Proof.
  destruct (q_in H) as (N & k & EN & K & -> & _). split; [apply grid_pos|]. destruct (Nat.eq_dec k N) as [->|]; [right; unfold grid; rewrite EN; lra|left]. assert (L2 : (S k <= N)%nat) by lia. apply le_INR in L2. rewrite S_INR, EN in L2. unfold grid. lra.
Qed.
Lemma q_one : q_value 1 = 16667 / 100000.
Proof.
  destruct (q_in 1) as (N & k & EN & K & -> & M). destruct (Nat.eq_dec k N) as [->|NE]; [unfold grid; rewrite EN; lra|exfalso]. pose proof (grid_chain N EN N k ltac:(lia)) as G. specialize (M N (le_n N)). assert (T : H_curve (grid N) <= 1) by (apply H_at_most_1; unfold grid; rewrite EN; lra).
  rewrite (Rabs_left (H_curve (grid k) - 1)) in M by lra. destruct (Req_dec (H_curve (grid N)) 1) as [E|E]; [rewrite E in *; replace (1 - 1) with 0 in M by ring; rewrite Rabs_R0 in M; lra|]. rewrite Rabs_left in M by lra. lra.
Qed.

(** * Bounds on the norm of the gradient *)
(** What is used of statistics.NormalDist().inv_cdf: it is defined exactly on the open unit interval, increasing, and zero at one half. *)
Definition quantile (f : R -> option R) : Prop :=
  (forall p, (exists x, f p = Some x) <-> 0 < p < 1) /\ (forall p q x y, f p = Some x -> f q = Some y -> p < q -> x < y) /\ f (1 / 2) = Some 0.
Example quantile_exists : exists f, quantile f.
Proof.
  exists (fun p => if rltb 0 p then if rltb p 1 then Some (p - 1 / 2) else None else None). unfold quantile, rltb. split; [|split].
  - intros p. destruct (Rlt_dec 0 p), (Rlt_dec p 1); split; try (intros (x & E); discriminate E); try lra. intros _. eexists. reflexivity.
  - intros p q x y. destruct (Rlt_dec 0 p), (Rlt_dec p 1); try discriminate. destruct (Rlt_dec 0 q), (Rlt_dec q 1); try discriminate. intros [= <-] [= <-]. lra.
  - destruct (Rlt_dec 0 (1 / 2)), (Rlt_dec (1 / 2) 1); try lra. f_equal. lra.
Qed.
Lemma quantile_sign f : quantile f -> forall p x, f p = Some x -> (0 < x <-> 1 / 2 < p) /\ (x = 0 <-> p = 1 / 2).
Proof.
  intros (D & I & H) p x E. destruct (Rtotal_order p (1 / 2)) as [L|[->|L]].
  - pose proof (I _ _ _ _ E H L). split; split; intros; lra.
  - rewrite H in E. injection E as <-. split; split; intros; lra.
  - pose proof (I _ _ _ _ H E L). split; split; intros; lra.
Qed.
Lemma pydiv_some a b : b <> 0 -> pydiv a b = Some (a / b).
Proof. intros H. unfold pydiv. destruct (Req_EM_T b 0); [contradiction|reflexivity]. Qed.
Lemma pydiv_zero a : pydiv a 0 = None.
Proof. unfold pydiv. destruct (Req_EM_T 0 0); [reflexivity|contradiction]. Qed.
(** The bounds from the maximal information content exist and are positive, and they are in order exactly when q does not exceed 1/6. *)
Theorem C65_grad_bounds : forall inv_cdf, quantile inv_cdf -> forall m derivatives epsilons ic eps, (0 < m)%nat -> max_IC derivatives epsilons = Some (ic, eps) -> 0 < eps ->
  exists lower upper z1 z2, get_grad_norm_bounds_max_IC inv_cdf m derivatives epsilons = Some (lower, upper) /\
    inv_cdf (1 - 2 * q_value ic) = Some z1 /\ inv_cdf (1 / 2 + q_value ic) = Some z2 /\ lower = eps * sqrt (INR m) / z1 /\ upper = eps * sqrt (INR m) / z2 /\
    0 < lower /\ 0 < upper /\ (lower <= upper <-> q_value ic <= 1 / 6).
Proof.
  intros inv Q m ds es ic eps M E P. assert (RM : 0 < eps * sqrt (INR m)) by (apply Rmult_lt_0_compat; [exact P|apply sqrt_lt_R0, lt_0_INR; exact M]). destruct (q_range ic) as [Q0 Q1]. assert (QU : q_value ic <= 16667 / 100000) by lra.
  unfold get_grad_norm_bounds_max_IC. rewrite E. cbn [obind]. replace (1 / 2 * (1 + 2 * q_value ic)) with (1 / 2 + q_value ic) by lra. pose proof Q as (D & I & H0).
  destruct (proj2 (D (1 - 2 * q_value ic)) ltac:(lra)) as (z1 & Z1). destruct (proj2 (D (1 / 2 + q_value ic)) ltac:(lra)) as (z2 & Z2). rewrite Z1, Z2. cbn [obind].
  assert (P1 : 0 < z1) by (apply (quantile_sign inv Q _ _ Z1); lra). assert (P2 : 0 < z2) by (apply (quantile_sign inv Q _ _ Z2); lra).
  rewrite !pydiv_some by lra. cbn [obind]. exists (eps * sqrt (INR m) / z1), (eps * sqrt (INR m) / z2), z1, z2. repeat (split; [reflexivity|]). assert (L1 : 0 < eps * sqrt (INR m) / z1) by (apply Rdiv_lt_0_compat; lra). assert (L2 : 0 < eps * sqrt (INR m) / z2) by (apply Rdiv_lt_0_compat; lra).
  split; [exact L1|]. split; [exact L2|]. set (a := eps * sqrt (INR m)) in *. assert (ZZ : a / z1 <= a / z2 <-> z2 <= z1).
  { unfold Rdiv. split; intros X.
    - apply Rmult_le_reg_l in X; [|exact RM]. destruct (Rle_or_lt z2 z1) as [|F]; [assumption|]. apply Rinv_lt_contravar in F; [|nra]. lra.
    - apply Rmult_le_compat_l; [lra|]. apply Rinv_le_contravar; lra. }
  rewrite ZZ. split; intros X.
  - destruct (Rle_or_lt (q_value ic) (1 / 6)) as [|F]; [assumption|]. assert (G : 1 - 2 * q_value ic < 1 / 2 + q_value ic) by lra. pose proof (I _ _ _ _ Z1 Z2 G). lra.
  - destruct (Req_dec (q_value ic) (1 / 6)) as [F|F].
    + rewrite F in *. replace (1 - 2 * (1 / 6)) with (1 / 2 + 1 / 6) in Z1 by lra. rewrite Z1 in Z2. injection Z2 as ->. lra.
    + assert (G : 1 / 2 + q_value ic < 1 - 2 * q_value ic) by lra. pose proof (I _ _ _ _ Z2 Z1 G). lra.
Qed.
Definition landscape : list R := [2; 0; -2; 2; -2; 0; 2].
Lemma landscape_signs : map (discretize 1) landscape = [1; 0; -1; 1; -1; 0; 1]%Z.
Proof. unfold landscape. cbn [map]. repeat f_equal; unfold discretize, rltb; repeat (match goal with |- context[Rlt_dec ?a ?b] => destruct (Rlt_dec a b) end); try reflexivity; lra. Qed.
Lemma landscape_ic : information landscape 1 = 1.
Proof.
  unfold information. rewrite landscape_signs. assert (TP : transition_probabilities [1; 0; -1; 1; -1; 0; 1]%Z = [1 / 6; 1 / 6; 1 / 6; 1 / 6; 1 / 6; 1 / 6]) by (unfold transition_probabilities; cbn; repeat f_equal; field).
  rewrite TP. pose proof ln6_1. unfold ic_of, rsum, rltb. cbn [map fold_right]. destruct (Rlt_dec (1 / 10000) (1 / 6)) as [_|F]; [|exfalso; lra]. replace (ln (1 / 6)) with (- ln 6) by (unfold Rdiv; rewrite Rmult_1_l, ln_Rinv by lra; reflexivity). field. lra.
Qed.
Lemma max_single ds e : max_IC ds [e] = Some (information ds e, e).
Proof. destruct (C65_max ds [e]) as [A B]. destruct (max_IC ds [e]) as [[m x]|] eqn:E; [|discriminate (proj1 A eq_refl)]. destruct (B m x eq_refl) as ([<-|[]] & -> & _). reflexivity. Qed.
(** A landscape whose information content is maximal gets a lower bound that exceeds the upper one: the grid on which q is looked up ends at 0.16667, beyond the maximum of the curve at 1/6. *)
Theorem C65_bounds_refuted : forall inv_cdf, quantile inv_cdf -> exists lower upper, get_grad_norm_bounds_max_IC inv_cdf 1 landscape [1] = Some (lower, upper) /\ upper < lower.
Proof.
  intros inv Q. destruct (C65_grad_bounds inv Q 1 landscape [1] 1 1 ltac:(lia)) as (lo & up & _ & _ & E & _ & _ & _ & _ & _ & _ & O); [rewrite max_single, landscape_ic; reflexivity|lra|]. exists lo, up. split; [exact E|]. rewrite q_one in O. destruct (Rle_or_lt lo up) as [L|L]; [apply O in L; lra|exact L].
Qed.
(** The bound from the sensitivity exists unless eta is 1/3 or at least 2/3, and is positive exactly below 1/3. *)
Theorem C65_sensitivity_bound : forall inv_cdf, quantile inv_cdf -> forall m derivatives epsilons eta s, (0 < m)%nat -> 0 < eta -> sensitivity_IC derivatives epsilons eta = Some s -> 0 < s ->
  (get_grad_norm_bounds_sensitivity_IC inv_cdf m derivatives epsilons eta = None <-> eta = 1 / 3 \/ 2 / 3 <= eta) /\
  forall b, get_grad_norm_bounds_sensitivity_IC inv_cdf m derivatives epsilons eta = Some b -> (exists z, inv_cdf (1 - 3 / 2 * eta) = Some z /\ b * z = s * sqrt (INR m)) /\ (0 < b <-> eta < 1 / 3).
Proof.
  intros inv Q m ds es eta s M ET E P. assert (RM : 0 < s * sqrt (INR m)) by (apply Rmult_lt_0_compat; [exact P|apply sqrt_lt_R0, lt_0_INR; exact M]). unfold get_grad_norm_bounds_sensitivity_IC. rewrite E. cbn [obind]. replace (1 - 3 * eta / 2) with (1 - 3 / 2 * eta) by lra. pose proof Q as (D & I & H0).
  destruct (inv (1 - 3 / 2 * eta)) as [z|] eqn:Z0; cbn [obind].
  - assert (U : 0 < 1 - 3 / 2 * eta < 1) by (apply D; exists z; exact Z0). destruct (quantile_sign inv Q _ _ Z0) as [S1 S2]. destruct (Req_dec z 0) as [->|NZ].
    + rewrite pydiv_zero. split; [|discriminate]. split; [intros _; left; apply proj1 in S2; specialize (S2 eq_refl); lra|reflexivity].
    + rewrite pydiv_some by exact NZ. split; [split; [discriminate|]|].
      * intros [->|F]; [|lra]. exfalso. apply NZ, S2. lra.
      * intros b [= <-]. split; [exists z; split; [reflexivity|field; exact NZ]|]. split; intros X.
        -- assert (0 < z); [|apply S1 in H; lra]. destruct (Rlt_dec 0 z) as [|F]; [assumption|]. assert (N : z < 0) by lra. apply Rinv_lt_0_compat in N. unfold Rdiv in X. nra.
        -- apply Rdiv_lt_0_compat; [exact RM|]. apply S1. lra.
  - split; [|discriminate]. split; [intros _|reflexivity]. destruct (Rle_or_lt (2 / 3) eta) as [|F]; [right; assumption|]. destruct (proj2 (D (1 - 3 / 2 * eta)) ltac:(lra)) as (z & Z1). congruence.
Qed.
(** For a sensitivity between 1/3 and 2/3 the value returned as an upper bound of a norm is negative. *)
Theorem C65_sensitivity_refuted : forall inv_cdf, quantile inv_cdf -> forall eta, 1 / 3 < eta < 2 / 3 -> exists b, get_grad_norm_bounds_sensitivity_IC inv_cdf 1 [0; 0; 0] [1] eta = Some b /\ b < 0.
Proof.
  intros inv Q eta H. destruct (C65_sensitivity_defined [0; 0; 0] [1] eta 1 (or_introl eq_refl)) as (s & S & _); [repeat constructor; rewrite Rabs_R0; lra|lra|]. destruct (C65_sensitivity [0; 0; 0] [1] eta) as [_ B]. destruct (B s S) as ([<-|[]] & _ & _).
  destruct (C65_sensitivity_bound inv Q 1 [0; 0; 0] [1] eta 1 ltac:(lia) ltac:(lra) S ltac:(lra)) as [N V]. destruct (get_grad_norm_bounds_sensitivity_IC inv 1 [0; 0; 0] [1] eta) as [b|] eqn:E; [|destruct (proj1 N eq_refl); lra]. exists b. split; [reflexivity|]. destruct (V b eq_refl) as ((z & _ & Z1) & O).
  destruct (Rlt_dec b 0) as [|F]; [assumption|]. destruct (Req_dec b 0) as [->|NB]; [|assert (PB : 0 < b) by lra; apply O in PB; lra]. rewrite Rmult_0_l in Z1. change (INR 1) with 1 in Z1. rewrite sqrt_1 in Z1. lra.
Qed.
(** A model with a scalar parameter, as the scaling of an observable is, cannot be analysed at all: the size of the shape () is computed as the float 1.0, which is refused as a slice index. *)
Theorem C65_scalar_refuted : exists shapes variations, (0 < total_params shapes)%nat /\ variations <> [] /\ Forall (fun row => length row = total_params shapes) variations /\ reshape_param_variations shapes variations = None.
Proof. exists [("theta"%string, [2%nat]); ("scale"%string, [])], [[1; 2; 3]]. split; [cbn; lia|]. split; [discriminate|]. split; [repeat constructor|]. apply C65_scalar; [discriminate|]. exists "scale"%string. right. left. reflexivity. Qed.

(** * Examples *)
Example C65_case : exists values, reshape_param_variations [("theta"%string, [2%nat]); ("phi"%string, [2%nat; 1%nat])] [[1; 2; 3; 4]; [5; 6; 7; 8]] = Some values /\ nth 1 values [] = [("theta"%string, [5; 6]); ("phi"%string, [7; 8])].
Proof. eexists. split; [reflexivity|reflexivity]. Qed.
Example C65_derivatives_case : let vs := [[0]; [1]; [3]] in let ls := [0; 2; 6] in
  length ls = length vs /\ forall i j, (j < length vs)%nat -> (i < length vs)%nat -> Rabs (nth j ls 0 - nth i ls 0) <= 2 * distance (nth i vs []) (nth j vs []).
Proof.
  cbv zeta. split; [reflexivity|]. assert (D : forall a b, distance [a] [b] = Rabs (b - a)). { intros a b. unfold distance. cbn. rewrite Rplus_0_r. rewrite <- sqrt_Rsqr_abs. unfold Rsqr. f_equal; ring. }
  intros i j J I. cbn [length] in *. assert (G : forall k, (k < 3)%nat -> nth k [0; 2; 6] 0 = 2 * nth k [0; 1; 3] 0 /\ nth k [[0]; [1]; [3]] [] = [nth k [0; 1; 3] 0]). { intros [|[|[|k]]] K; [split; [cbn; lra|reflexivity]..|lia]. }
  destruct (G i I) as [-> ->]. destruct (G j J) as [-> ->]. rewrite D. replace (2 * nth j [0; 1; 3] 0 - 2 * nth i [0; 1; 3] 0) with (2 * (nth j [0; 1; 3] 0 - nth i [0; 1; 3] 0)) by ring. rewrite Rabs_mult, (Rabs_right 2) by lra. apply Rle_refl.
Qed.
Example C65_q_case : H_curve (1 / 1000) <= 1 <= 1.
Proof. split; [apply H_at_most_1; lra|apply Rle_refl]. Qed.
Example C65_bounds_case : max_IC landscape [1] = Some (1, 1) /\ 0 < 1.
Proof. rewrite max_single, landscape_ic. split; [reflexivity|lra]. Qed.
Example C65_sensitivity_case : exists s, sensitivity_IC landscape [1; 3] (1 / 4) = Some s /\ 0 < s.
Proof.
  destruct (C65_sensitivity_defined landscape [1; 3] (1 / 4) 3) as (s & S & L); [right; left; reflexivity|unfold landscape; repeat (apply Forall_cons; [apply Rabs_le; lra|]); apply Forall_nil|lra|]. exists s. split; [exact S|]. destruct (C65_sensitivity landscape [1; 3] (1 / 4)) as [_ B]. destruct (B s S) as ([<-|[<-|[]]] & _); lra.
Qed.

Print Assumptions C65_variations.
Print Assumptions C65_scalar.
Print Assumptions C65_derivatives.
Print Assumptions C65_discretize.
Print Assumptions C65_transitions.
Print Assumptions C65_probabilities.
Print Assumptions C65_information.
Print Assumptions C65_flat.
Print Assumptions C65_scale.
Print Assumptions C65_sign.
Print Assumptions C65_max.
Print Assumptions C65_sensitivity.
Print Assumptions C65_sensitivity_defined.
Print Assumptions C65_derivative_values.
Print Assumptions C65_counts.
Print Assumptions C65_losses.
Print Assumptions C65_q.
Print Assumptions C65_grad_bounds.
Print Assumptions C65_bounds_refuted.
Print Assumptions C65_sensitivity_bound.
Print Assumptions C65_sensitivity_refuted.
Print Assumptions C65_scalar_refuted.
Print Assumptions C65_rows.
