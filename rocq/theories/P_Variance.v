(** C98: the variance of the derivative estimated by the multi-gap rule, and the shifts chosen to minimise it. *)
From Coq Require Import String Reals List Arith Bool Lia Lra.
From Coquelicot Require Import Coquelicot.
From Coq Require Import List.
From Verif Require Import M_PSR P_PSR M_Variance.
Import ListNotations.
Open Scope R_scope.

(** * Specification *)
(** An average over outcomes: additive and homogeneous. *)
Definition average {W : Type} (A : (W -> R) -> R) : Prop :=
  (forall f g, A (fun x => f x + g x) = A f + A g) /\ (forall k f, A (fun x => k * f x) = k * A f) /\ (forall f g, (forall x, f x = g x) -> A f = A g).
(** The parameter values at which the rule measures. *)
Definition points (t : R) (shifts : list R) : list R := flat_map (fun s => [t + s; t - s]) shifts.
(** Measurement errors with variance one, uncorrelated between different points. *)
Definition white {W : Type} (A : (W -> R) -> R) (noise : W -> R -> R) (pts : list R) : Prop :=
  forall a b, In a pts -> In b pts -> A (fun x => noise x a) = 0 /\ A (fun x => noise x a * noise x b) = if Req_EM_T a b then 1 else 0.
(** The weights of the measured differences in the estimate. *)
Definition weights (w shifts gaps : list R) : Prop :=
  length w = length shifts /\ forall g, In g gaps -> rsum (map (fun p : R * R => fst p * (4 * sin (snd p * g / 2))) (combine w shifts)) = g.
Definition sum_squares (w : list R) : R := rsum (map (fun x => x * x) w).

(** * The estimate *)
Lemma rsum_swap {A B} (f : A -> B -> R) la lb : rsum (map (fun x => rsum (map (fun y => f x y) lb)) la) = rsum (map (fun y => rsum (map (fun x => f x y) la)) lb).
Proof. induction la as [|a la IH]; cbn [map rsum]; [symmetry; apply rsum_zero; reflexivity|]. rewrite IH, <- rsum_plus. reflexivity. Qed.
Lemma dot_row f gaps X : dot (map f gaps) X = rsum (map (fun p : R * R => f (fst p) * snd p) (combine gaps X)).
Proof. unfold dot. revert X. induction gaps as [|g gaps IH]; intros [|x X]; cbn [map combine rsum fst snd]; try reflexivity. rewrite IH. reflexivity. Qed.
Lemma matrix_square shifts gaps : length shifts = length gaps -> square (length gaps) (shift_matrix shifts gaps).
Proof. intros L. split; [unfold shift_matrix; rewrite map_length; exact L|]. intros row H. apply in_map_iff in H as (s & <- & _). apply map_length. Qed.
(** The rule returns the differences of the measured values, added with the weights. *)
Theorem C98_estimate : forall solve E rho name gaps shifts w d, length shifts = length gaps -> solver_ok (length gaps) solve -> weights w shifts gaps ->
  multi_gap_with solve E rho name gaps shifts = Some d ->
  d = rsum (map (fun p : R * R => fst p * (E (shifted rho name (rho name + snd p)) - E (shifted rho name (rho name - snd p)))) (combine w shifts)).
Proof.
  intros solve E rho name gaps shifts w d L S [LW HW] H. unfold multi_gap_with in H. destruct gaps as [|g0 gr] eqn:Eg; [discriminate H|]. rewrite <- Eg in *.
  change (map (fun s => map (fun g => 4 * sin (s * g / 2)) gaps) shifts) with (shift_matrix shifts gaps) in H. set (F := map _ shifts) in H.
  destruct (solve (shift_matrix shifts gaps) F) as [X|] eqn:ES; [|discriminate H]. injection H as <-.
  destruct (S (shift_matrix shifts gaps) F (matrix_square _ _ L)) as [_ K]; [unfold F; rewrite map_length; exact L|]. destruct (K X ES) as (_ & LX & MX).
  unfold shift_matrix, F in MX. rewrite map_map in MX.
  transitivity (rsum (map (fun p : R * R => rsum (map (fun q : R * R => fst q * (4 * sin (snd q * fst p / 2)) * snd p) (combine w shifts))) (combine gaps X))).
  { apply rsum_ext. intros [g x] I. cbn [fst snd]. apply in_combine_l in I. rewrite <- (HW g I) at 1. rewrite Rmult_comm, <- rsum_scal. apply rsum_ext. intros q _. ring. }
  rewrite rsum_swap. apply rsum_ext. intros [u s] I. cbn [fst snd]. apply in_combine_r in I.
  pose proof (map_eq_in _ _ _ MX s I) as Hs. cbn beta in Hs. rewrite dot_row in Hs. rewrite <- Hs, <- rsum_scal. apply rsum_ext. intros q _. ring.
Qed.

(** * Its variance *)
Lemma rsum_signed t (f : R * R -> R) l : rsum (map f (flat_map (fun p : R * R => [(fst p, t + snd p); (- fst p, t - snd p)]) l)) = rsum (map (fun p : R * R => f (fst p, t + snd p) + f (- fst p, t - snd p)) l).
Proof. induction l as [|p r IH]; [reflexivity|]. cbn [flat_map app map rsum]. rewrite IH. ring. Qed.
Section Noise.
  Variable W : Type.
  Variable A : (W -> R) -> R.
  Hypothesis HA : average A.
  Lemma av_sum {B} (f : W -> B -> R) l : A (fun x => rsum (map (f x) l)) = rsum (map (fun b => A (fun x => f x b)) l).
  Proof.
    destruct HA as (P & K & X). induction l as [|b l IH]; cbn [map rsum]; [|rewrite <- IH; apply P].
    rewrite (X _ (fun x => 0 * 0)) by (intros; ring). rewrite (K 0 (fun _ => 0)). ring.
  Qed.
  Lemma pick (x : R * R) l : NoDup (map snd l) -> In x l -> rsum (map (fun y => fst x * fst y * (if Req_EM_T (snd x) (snd y) then 1 else 0)) l) = fst x * fst x.
  Proof.
    induction l as [|y l IH]; intros N I; [destruct I|]. cbn [map] in N. inversion N as [|? ? N1 N2]; subst. cbn [map rsum]. destruct I as [->|I].
    - destruct (Req_EM_T (snd x) (snd x)); [|congruence]. rewrite rsum_zero; [ring|]. intros z Hz. destruct (Req_EM_T (snd x) (snd z)) as [E|]; [|ring]. exfalso. apply N1. rewrite E. apply in_map, Hz.
    - rewrite (IH N2 I). destruct (Req_EM_T (snd x) (snd y)) as [E|]; [|ring]. exfalso. apply N1. rewrite <- E. apply in_map, I.
  Qed.
  Lemma quad (noise : W -> R -> R) l : NoDup (map snd l) -> white A noise (map snd l) ->
    A (fun x => (rsum (map (fun p : R * R => fst p * noise x (snd p)) l)) ^ 2) = rsum (map (fun p : R * R => fst p * fst p) l).
  Proof.
    intros N Hw. pose proof HA as (P & K & X).
    rewrite (X _ (fun x => rsum (map (fun p : R * R => rsum (map (fun q : R * R => fst p * noise x (snd p) * (fst q * noise x (snd q))) l)) l))).
    2:{ intros x. transitivity (rsum (map (fun p : R * R => rsum (map (fun q : R * R => fst q * noise x (snd q)) l) * (fst p * noise x (snd p))) l)); [rewrite rsum_scal; ring|].
        apply rsum_ext. intros p _. rewrite Rmult_comm, <- rsum_scal. reflexivity. }
    rewrite av_sum. apply rsum_ext. intros p Ip. rewrite av_sum. rewrite <- (pick p l N Ip). apply rsum_ext. intros q Iq.
    rewrite (X _ (fun x => fst p * fst q * (noise x (snd p) * noise x (snd q)))) by (intros; ring). rewrite K. f_equal. apply Hw; apply in_map; assumption.
  Qed.
  (** With measurement errors of variance one the estimate has the variance 2 (w1^2 + w2^2 + ...). *)
  Theorem C98_variance : forall solve E noise rho name gaps shifts w d0 (d : W -> R), length shifts = length gaps -> solver_ok (length gaps) solve -> weights w shifts gaps ->
    NoDup (points (rho name) shifts) -> white A noise (points (rho name) shifts) -> multi_gap_with solve E rho name gaps shifts = Some d0 ->
    (forall x, multi_gap_with solve (fun r => E r + noise x (r name)) rho name gaps shifts = Some (d x)) ->
    A (fun x => (d x - d0) ^ 2) = 2 * sum_squares w.
  Proof.
    intros solve E noise rho name gaps shifts w d0 d L S Hw N Wh H0 H. pose proof HA as (P & K & X). pose proof Hw as [LW _]. set (t := rho name) in *.
    set (l := flat_map (fun p : R * R => [(fst p, t + snd p); (- fst p, t - snd p)]) (combine w shifts)).
    assert (Pts : map snd l = points t shifts).
    { unfold l, points. clear - LW. revert shifts LW. induction w as [|a w IH]; intros [|s shifts] LW; try discriminate LW; [reflexivity|]. cbn. do 2 f_equal. apply IH. injection LW as LW. exact LW. }
    assert (FM : forall f : R * R -> R, rsum (map f l) = rsum (map (fun p : R * R => f (fst p, t + snd p) + f (- fst p, t - snd p)) (combine w shifts))).
    { intros f. apply rsum_signed. }
    rewrite (X _ (fun x => (rsum (map (fun p : R * R => fst p * noise x (snd p)) l)) ^ 2)).
    - rewrite quad by (rewrite Pts; assumption). rewrite FM. cbn [fst snd]. unfold sum_squares. clear - LW. revert shifts LW.
      induction w as [|a w IH]; intros [|s shifts] LW; try discriminate LW; cbn [combine map rsum fst snd]; [ring|]. rewrite IH by (injection LW as LW; exact LW). ring.
    - intros x. f_equal. rewrite (C98_estimate _ _ _ _ _ _ _ _ L S Hw (H x)), (C98_estimate _ _ _ _ _ _ _ _ L S Hw H0), FM. cbn [fst snd]. fold t.
      match goal with |- ?a - ?b = ?c => replace (a - b) with (a + -1 * b) by ring end. rewrite <- rsum_scal, <- rsum_plus. apply rsum_ext. intros p _. unfold shifted. rewrite String.eqb_refl. ring.
  Qed.
End Noise.

(** Noise that meets the hypotheses for one gap: the four combinations of two signs, equally likely. *)
Definition sign (b : bool) : R := if b then 1 else -1.
Definition four (f : bool * bool -> R) : R := (f (true, true) + f (true, false) + f (false, true) + f (false, false)) / 4.
Example C98_variance_witness : let noise := fun (x : bool * bool) a => if Req_EM_T a PI then sign (fst x) else sign (snd x) in
  average four /\ NoDup (points 0 [PI]) /\ white four noise (points 0 [PI]) /\ weights [1 / 4] [PI] [1].
Proof.
  cbn zeta. pose proof PI_RGT_0 as Pp. unfold points. cbn [flat_map app]. replace (0 + PI) with PI by ring. replace (0 - PI) with (- PI) by ring. repeat apply conj.
  - intros f g. unfold four. field.
  - intros k f. unfold four. field.
  - intros f g H. unfold four. rewrite !H. reflexivity.
  - constructor; [intros [E|[]]; lra|constructor; [intros []|constructor]].
  - intros a b Ha Hb. unfold four. cbn [fst snd]. destruct Ha as [<-|[<-|[]]], Hb as [<-|[<-|[]]]; repeat (destruct (Req_EM_T _ _); try lra); unfold sign; split; field.
  - reflexivity.
  - intros g [<-|[]]. cbn [combine map rsum fst snd]. replace (PI * 1 / 2) with (PI / 2) by field. rewrite sin_PI2. field.
Qed.

(** * What the code minimises *)
(** If the shifts are proportional to the gaps, the function [variance] is that variance. *)
Theorem C98_proportional : forall solve pinv gaps c a, solver_ok (length gaps) solve -> solve (shift_matrix (map (fun g => c * g) gaps) gaps) gaps = Some a ->
  weights a (map (fun g => c * g) gaps) gaps /\ variance solve pinv (map (fun g => c * g) gaps) gaps = 2 * sum_squares a.
Proof.
  intros solve pinv gaps c a S H. assert (SQ : inner a a = sum_squares a) by (unfold inner, sum_squares; clear; induction a as [|x a IH]; cbn [combine map rsum fst snd]; [reflexivity|rewrite IH; reflexivity]).
  split; [|unfold variance; rewrite H, SQ; reflexivity].
  destruct (S _ gaps (matrix_square (map (fun g => c * g) gaps) gaps (map_length _ _)) eq_refl) as [_ K]. destruct (K a H) as (_ & LA & MA). split; [rewrite map_length; exact LA|].
  intros g I. unfold shift_matrix in MA. rewrite !map_map in MA.
  assert (Hg : dot (map (fun h => 4 * sin (c * g * h / 2)) gaps) a = g).
  { apply (map_eq_in (fun g => dot (map (fun h => 4 * sin (c * g * h / 2)) gaps) a) (fun g => g) gaps); [rewrite map_id; exact MA|exact I]. }
  rewrite dot_row in Hg. etransitivity; [|exact Hg]. clear. revert gaps.
  induction a as [|x a IH]; intros [|y l]; cbn [map combine rsum fst snd]; try reflexivity. rewrite IH. f_equal. rewrite Rmult_comm. do 2 f_equal. f_equal. field.
Qed.

(** A case that meets the hypotheses: gaps 1 and 2, shifts pi/2 and pi. *)
Lemma entries : sin (PI * 1 / 2) = 1 /\ sin (PI * 2 / 2) = 0 /\ sin (PI / 2 * 1 / 2) = 1 / sqrt 2 /\ sin (PI / 2 * 2 / 2) = 1.
Proof.
  repeat split; [replace (PI * 1 / 2) with (PI / 2) by field; apply sin_PI2|replace (PI * 2 / 2) with PI by field; apply sin_PI| |replace (PI / 2 * 2 / 2) with (PI / 2) by field; apply sin_PI2].
  replace (PI / 2 * 1 / 2) with (PI / 4) by field. apply sin_PI4.
Qed.
Lemma half : 1 / sqrt 2 * (1 / sqrt 2) = 1 / 2.
Proof. assert (H : sqrt 2 * sqrt 2 = 2) by (apply sqrt_sqrt; lra). assert (N : sqrt 2 <> 0) by (intros E; rewrite E in H; lra). transitivity (1 / (sqrt 2 * sqrt 2)); [field; exact N|rewrite H; reflexivity]. Qed.
Lemma swapped_matrix : shift_matrix [PI; PI / 2] [1; 2] = [[4; 0]; [4 * (1 / sqrt 2); 4]].
Proof. destruct entries as (A & B & C & D). unfold shift_matrix. cbn [map]. rewrite A, B, C, D. do 2 f_equal; [ring|f_equal; ring|f_equal; f_equal; ring]. Qed.
Lemma swapped_nonsingular : nonsingular 2 [[4; 0]; [4 * (1 / sqrt 2); 4]].
Proof.
  intros [|x [|y [|? ?]]] [|x' [|y' [|? ?]]] LX LY H; try discriminate. pose proof (H _ (or_introl eq_refl)) as H1. pose proof (H _ (or_intror (or_introl eq_refl))) as H2.
  cbn [dot combine map rsum fst snd] in H1, H2. unfold dot in H1, H2. cbn [combine map rsum fst snd] in H1, H2. assert (x = x') by lra. subst x'. assert (y = y') by lra. subst. reflexivity.
Qed.
Lemma swapped_weights : weights [1 / 4 - 1 / sqrt 2 / 2; 1 / 2] [PI; PI / 2] [1; 2].
Proof.
  destruct entries as (A & B & C & D). split; [reflexivity|]. intros g [<-|[<-|[]]]; cbn [combine map rsum fst snd]; [rewrite A, C|rewrite B, D]; lra.
Qed.
(** The function [variance] solves the system with the matrix itself, while the estimate uses its transpose.  For the gaps 1, 2 and the shifts pi, pi/2 the value it returns
    is smaller than the variance of the estimate, by 3/16 in units of the variance of one measurement. *)
Theorem C98_variance_refuted : forall solve pinv, solver_ok 2 solve ->
  exists w, weights w [PI; PI / 2] [1; 2] /\ variance solve pinv [PI; PI / 2] [1; 2] = 2 * sum_squares w - 3 / 16.
Proof.
  intros solve pinv S. exists [1 / 4 - 1 / sqrt 2 / 2; 1 / 2]. split; [exact swapped_weights|]. unfold variance. rewrite swapped_matrix.
  destruct (S [[4; 0]; [4 * (1 / sqrt 2); 4]] [1; 2]) as [K1 K2]; [split; [reflexivity|intros row [<-|[<-|[]]]; reflexivity]|reflexivity|].
  destruct (K1 swapped_nonsingular) as [a Ha]. rewrite Ha. destruct (K2 a Ha) as (_ & LA & MA). destruct a as [|x [|y [|? ?]]]; try discriminate LA. unfold dot in MA. cbn [map combine rsum fst snd] in MA.
  injection MA as M1 M2. pose proof half as Hh. set (r := 1 / sqrt 2) in *. assert (X : x = 1 / 4) by lra. subst x. assert (Y : y = 1 / 2 - r / 4) by lra. subst y.
  unfold inner, sum_squares. cbn [map combine rsum fst snd]. nra.
Qed.
(** The same two shifts in the other order are proportional to the gaps and give the exact value: the order matters to [variance], and not to the estimate. *)
Lemma ordered_matrix : shift_matrix [PI / 2; PI] [1; 2] = [[4 * (1 / sqrt 2); 4]; [4; 0]].
Proof. destruct entries as (A & B & C & D). unfold shift_matrix. cbn [map]. rewrite A, B, C, D. repeat f_equal; ring. Qed.
Lemma ordered_nonsingular : nonsingular 2 [[4 * (1 / sqrt 2); 4]; [4; 0]].
Proof.
  intros [|x [|y [|? ?]]] [|x' [|y' [|? ?]]] LX LY H; try discriminate. pose proof (H _ (or_introl eq_refl)) as H1. pose proof (H _ (or_intror (or_introl eq_refl))) as H2.
  unfold dot in H1, H2. cbn [combine map rsum fst snd] in H1, H2. assert (x = x') by lra. subst x'. assert (y = y') by lra. subst. reflexivity.
Qed.
Example C98_proportional_witness : forall solve, solver_ok 2 solve -> exists a, solve (shift_matrix (map (fun g => PI / 2 * g) [1; 2]) [1; 2]) [1; 2] = Some a.
Proof.
  intros solve S. cbn [map]. replace (PI / 2 * 1) with (PI / 2) by field. replace (PI / 2 * 2) with PI by field. rewrite ordered_matrix.
  apply S; [split; [reflexivity|intros row [<-|[<-|[]]]; reflexivity]|reflexivity|exact ordered_nonsingular].
Qed.
(** The value of [variance] depends on the order of the shifts. *)
Theorem C98_order_refuted : forall solve pinv, solver_ok 2 solve -> variance solve pinv [PI; PI / 2] [1; 2] = variance solve pinv [PI / 2; PI] [1; 2] - 3 / 16.
Proof.
  intros solve pinv S. unfold variance. rewrite swapped_matrix, ordered_matrix.
  destruct (S [[4; 0]; [4 * (1 / sqrt 2); 4]] [1; 2]) as [K1 K2]; [split; [reflexivity|intros row [<-|[<-|[]]]; reflexivity]|reflexivity|].
  destruct (S [[4 * (1 / sqrt 2); 4]; [4; 0]] [1; 2]) as [J1 J2]; [split; [reflexivity|intros row [<-|[<-|[]]]; reflexivity]|reflexivity|].
  destruct (K1 swapped_nonsingular) as [a Ha]. destruct (J1 ordered_nonsingular) as [b Hb]. rewrite Ha, Hb. destruct (K2 a Ha) as (_ & LA & MA). destruct (J2 b Hb) as (_ & LB & MB).
  destruct a as [|x [|y [|? ?]]]; try discriminate LA. destruct b as [|u [|v [|? ?]]]; try discriminate LB. unfold dot in MA, MB. cbn [map combine rsum fst snd] in MA, MB.
  injection MA as M1 M2. injection MB as N1 N2. pose proof half as Hh. set (r := 1 / sqrt 2) in *. assert (x = 1 / 4) by lra. subst x. assert (y = 1 / 2 - r / 4) by lra. subst y.
  assert (u = 1 / 2) by lra. subst u. assert (v = 1 / 4 - r / 2) by lra. subst v. unfold inner. cbn [map combine rsum fst snd]. nra.
Qed.

(** * The constraints *)
(** Shifts meet the constraints handed to the optimiser exactly if each lies between the bounds and any two are at least 0.02 apart. *)
Theorem C98_constraints : forall n lb ub x, (forall c, In c (constraints n lb ub) -> 0 <= c x) <->
  (forall i, (i < n)%nat -> lb <= x i <= ub) /\ (forall i j, (i < n)%nat -> (j < n)%nat -> i <> j -> 2 / 100 <= Rabs (x i - x j)).
Proof.
  intros n lb ub x. unfold constraints. split.
  - intros H. assert (H2 : forall i j, (i < n)%nat -> (j < i)%nat -> 2 / 100 <= Rabs (x i - x j)).
    { intros i j Hi Hj. enough (0 <= Rabs (x i - x j) - 2 / 100) by lra. apply (H (fun x => Rabs (x i - x j) - 2 / 100)). apply in_or_app. right. apply in_flat_map. exists i.
      split; [rewrite <- in_rev; apply in_seq; lia|]. apply in_map_iff. exists j. split; [reflexivity|apply in_seq; lia]. }
    split.
    + intros i Hi. enough (0 <= x i - lb /\ 0 <= ub - x i) by lra. split; [apply (H (fun x => x i - lb))|apply (H (fun x => ub - x i))]; apply in_or_app; left; apply in_flat_map; exists i;
        (split; [apply in_seq; lia|cbn; tauto]).
    + intros i j Hi Hj Hij. destruct (Nat.lt_total i j) as [G|[G|G]]; [|contradiction|apply H2; assumption]. rewrite Rabs_minus_sym. apply H2; assumption.
  - intros [H1 H2] c Hc. apply in_app_or in Hc as [Hc|Hc]; apply in_flat_map in Hc as (i & Hi & Hc).
    + apply in_seq in Hi. specialize (H1 i ltac:(lia)). destruct Hc as [<-|[<-|[]]]; lra.
    + rewrite <- in_rev in Hi. apply in_seq in Hi. apply in_map_iff in Hc as (j & <- & Hj). apply in_seq in Hj. specialize (H2 i j ltac:(lia) ltac:(lia) ltac:(lia)). lra.
Qed.
Example C98_constraints_witness : forall c, In c (constraints 3 1 2) -> 0 <= c (fun i => 1 + INR i / 2).
Proof.
  apply C98_constraints. split; [intros [|[|[|i]]] H; try lia; cbn; lra|].
  intros [|[|[|i]]] [|[|[|j]]] Hi Hj Hij; try lia; cbn; unfold Rabs; destruct (Rcase_abs _); lra.
Qed.
(** The optimiser is called exactly if both bounds are given and neither is 0. *)
Theorem C98_bounds : forall solve pinv minimize n gaps lb ub,
  calculate_optimal_shifts solve pinv minimize n gaps lb ub <> None <-> exists l u, lb = Some l /\ ub = Some u /\ l <> 0 /\ u <> 0.
Proof.
  intros solve pinv minimize n gaps lb ub. unfold calculate_optimal_shifts. destruct lb as [l|], ub as [u|]; try (split; [congruence|intros (l' & u' & A & B & _); discriminate]).
  destruct (Req_EM_T l 0) as [El|El]; [split; [congruence|intros (l' & u' & A & _ & N & _); congruence]|].
  destruct (Req_EM_T u 0) as [Eu|Eu]; [split; [congruence|intros (l' & u' & _ & A & _ & N); congruence]|].
  split; [intros _; exists l, u; repeat split; assumption|congruence].
Qed.
(** Both bounds are given, and the call still fails with the message that both must be given: the lower bound is 0. *)
Theorem C98_zero_bound_refuted : forall solve pinv minimize n gaps u, calculate_optimal_shifts solve pinv minimize n gaps (Some 0) (Some u) = None.
Proof. intros. unfold calculate_optimal_shifts. destruct (Req_EM_T 0 0); [reflexivity|congruence]. Qed.
(** If the interval has room for the shifts and the optimiser respects constraints that can be met, the shifts lie in the interval, at least 0.02 apart. *)
Lemma feasible n l u : l + 2 / 100 * INR (n - 1) <= u -> forall c, In c (constraints n l u) -> 0 <= c (fun i => l + 2 / 100 * INR i).
Proof.
  intros H. apply (proj2 (C98_constraints n l u _)). split.
  - intros i Hi. pose proof (pos_INR i). assert (INR i <= INR (n - 1)) by (apply le_INR; lia). lra.
  - assert (G : forall i j, (j < i)%nat -> 2 / 100 <= Rabs (l + 2 / 100 * INR i - (l + 2 / 100 * INR j))).
    { intros i j Hj. assert (INR j + 1 <= INR i) by (rewrite <- S_INR; apply le_INR; lia). rewrite Rabs_right; lra. }
    intros i j _ _ Hij. destruct (Nat.lt_total i j) as [K|[K|K]]; [|contradiction|apply G; assumption]. rewrite Rabs_minus_sym. apply G; assumption.
Qed.
Theorem C98_optimum : forall solve pinv minimize n gaps l u r, l + 2 / 100 * INR (n - 1) <= u ->
  (forall f x0, (exists x, forall c, In c (constraints n l u) -> 0 <= c x) -> forall c, In c (constraints n l u) -> 0 <= c (fun i => nth i (minimize f x0 (constraints n l u)) 0)) ->
  calculate_optimal_shifts solve pinv minimize n gaps (Some l) (Some u) = Some r ->
  (forall i, (i < n)%nat -> l <= nth i r 0 <= u) /\ (forall i j, (i < n)%nat -> (j < n)%nat -> i <> j -> 2 / 100 <= Rabs (nth i r 0 - nth j r 0)).
Proof.
  intros solve pinv minimize n gaps l u r F Hm H. unfold calculate_optimal_shifts in H. destruct (Req_EM_T l 0); [discriminate|]. destruct (Req_EM_T u 0); [discriminate|]. injection H as <-.
  apply (proj1 (C98_constraints n l u (fun i => nth i (minimize _ _ (constraints n l u)) 0))). apply Hm. eexists. exact (feasible n l u F).
Qed.
(** An optimiser that respects the constraints of this call: the one that returns 1, 1.5, 2. *)
Example C98_optimum_witness : let minimize := fun (_ : list R -> R) (_ : list R) (_ : list constraint) => [1; 3 / 2; 2] in
  forall c, In c (constraints 3 1 2) -> 0 <= c (fun i => nth i (minimize (fun _ => 0) [] []) 0).
Proof.
  cbn zeta. apply (proj2 (C98_constraints 3 1 2 _)). split; [intros [|[|[|i]]] H; try lia; cbn; lra|].
  intros [|[|[|i]]] [|[|[|j]]] Hi Hj Hij; try lia; cbn; unfold Rabs; destruct (Rcase_abs _); lra.
Qed.
(** If the optimiser never returns a point worse than its first guess, the shifts are no worse than equidistant ones from the lower to the upper bound. *)
Theorem C98_no_worse : forall solve pinv minimize n gaps l u r, (2 <= n)%nat -> (forall f x0 cs, f (minimize f x0 cs) <= f x0) ->
  calculate_optimal_shifts solve pinv minimize n gaps (Some l) (Some u) = Some r ->
  variance solve pinv r gaps <= variance solve pinv (map (fun i => l + INR i * (u - l) / INR (n - 1)) (seq 0 n)) gaps.
Proof.
  intros solve pinv minimize n gaps l u r Hn Hm H. unfold calculate_optimal_shifts in H. destruct (Req_EM_T l 0); [discriminate|]. destruct (Req_EM_T u 0); [discriminate|]. injection H as <-.
  eapply Rle_trans; [apply (Hm (fun shifts => variance solve pinv shifts gaps))|]. apply Req_le. f_equal. unfold linspace. destruct n as [|[|n]]; [lia|lia|].
  apply map_ext. intros i. rewrite (minus_INR (S (S n)) 1) by lia. change (INR 1) with 1. unfold Rdiv. ring.
Qed.
Example C98_no_worse_witness : forall f x0 cs, f ((fun (_ : list R -> R) x (_ : list constraint) => x) f x0 cs) <= f x0.
Proof. intros. apply Rle_refl. Qed.
(** If the system cannot be solved, the value is twice the sum of the squares of the row of gaps times the pseudo-inverse. *)
Theorem C98_fallback : forall solve pinv shifts gaps, solve (shift_matrix shifts gaps) gaps = None ->
  variance solve pinv shifts gaps = 2 * sum_squares (map (fun j => rsum (map (fun p : R * list R => fst p * nth j (snd p) 0) (combine gaps (pinv (shift_matrix shifts gaps)))))
                                                         (seq 0 (length (hd [] (pinv (shift_matrix shifts gaps)))))).
Proof.
  intros solve pinv shifts gaps H. unfold variance. rewrite H. fold (row_times gaps (pinv (shift_matrix shifts gaps))). generalize (row_times gaps (pinv (shift_matrix shifts gaps))). intros a. f_equal.
  unfold inner, sum_squares. induction a as [|x a IH]; cbn [combine map rsum fst snd]; [reflexivity|rewrite IH; reflexivity].
Qed.
Print Assumptions C98_estimate.
Print Assumptions C98_variance.
Print Assumptions C98_proportional.
Print Assumptions C98_variance_refuted.
Print Assumptions C98_order_refuted.
Print Assumptions C98_constraints.
Print Assumptions C98_bounds.
Print Assumptions C98_zero_bound_refuted.
Print Assumptions C98_optimum.
Print Assumptions C98_no_worse.
Print Assumptions C98_fallback.
