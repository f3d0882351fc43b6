(** C19: zero-noise extrapolation is exact on polynomial noise curves. *)
From Coq Require Import Reals List Arith Lra Lia.
From Verif Require Import M_Zne.
Import ListNotations.
Open Scope R_scope.

(** Specification: the polynomial with coefficients [c], constant term first. *)
Fixpoint peval (c : list R) (x : R) : R := match c with [] => 0 | a :: r => a + x * peval r x end.

(** numpy.polyfit on [n] points with degree n-1 returns n coefficients that minimise the sum of squared residuals. *)
Fixpoint resid (f : R -> R) (xs ys : list R) : R :=
  match xs, ys with x :: xr, y :: yr => (f x - y) * (f x - y) + resid f xr yr | _, _ => 0 end.
Definition polyfit_ok (polyfit : list R -> list R -> nat -> list R) (xs : list R) : Prop :=
  forall ys, length ys = length xs -> let c := polyfit xs ys (length xs - 1)%nat in
    length c = length xs /\ forall c', length c' = length xs -> resid (poly1d c) xs ys <= resid (poly1d c') xs ys.

Lemma poly1d_acc c x : forall acc, fold_left (fun acc c => acc * x + c) c acc = acc * x ^ length c + peval (rev c) x.
Proof.
  assert (A : forall l b, peval (l ++ [b]) x = peval l x + b * x ^ length l).
  { induction l as [|a l IH]; intro b; simpl; [ring|]. rewrite IH. ring. }
  induction c as [|a c IH]; intro acc; simpl; [ring|]. rewrite IH, A, rev_length. ring.
Qed.
Lemma poly1d_peval c x : poly1d c x = peval (rev c) x.
Proof. unfold poly1d. rewrite poly1d_acc. ring. Qed.

Fixpoint padd (a b : list R) : list R := match a, b with [], b => b | a, [] => a | x :: a', y :: b' => (x + y) :: padd a' b' end.
Lemma peval_add a b x : peval (padd a b) x = peval a x + peval b x.
Proof. revert b. induction a as [|y a IH]; intros [|z b]; simpl; try ring. rewrite IH. ring. Qed.
Lemma padd_len a b : length (padd a b) = max (length a) (length b).
Proof. revert b. induction a as [|y a IH]; intros [|z b]; simpl; auto. Qed.
Lemma peval_scale k a x : peval (map (Rmult k) a) x = k * peval a x.
Proof. induction a as [|y a IH]; simpl; [ring|]. rewrite IH. ring. Qed.

(** Division by (x - a). *)
Lemma pdiv c a : exists q, (length q <= length c - 1)%nat /\ forall x, peval c x - peval c a = (x - a) * peval q x.
Proof.
  induction c as [|c0 c (q & Hl & Hq)]; [exists []; split; [simpl; lia|intro; simpl; ring]|].
  exists (padd c (map (Rmult a) q)). split.
  - rewrite padd_len, map_length. simpl. lia.
  - intro x. simpl. rewrite peval_add, peval_scale. specialize (Hq x).
    replace (c0 + x * peval c x - (c0 + a * peval c a)) with ((x - a) * peval c x + a * (peval c x - peval c a)) by ring. rewrite Hq. ring.
Qed.
Lemma roots l : forall c, NoDup l -> (length c <= length l)%nat -> (forall x, In x l -> peval c x = 0) -> forall x, peval c x = 0.
Proof.
  induction l as [|a l IH]; intros c Hn Hl Hr x.
  - destruct c; [reflexivity|simpl in Hl; lia].
  - inversion Hn as [|? ? Ha Hn']; subst. destruct (pdiv c a) as (q & Lq & Hq).
    assert (Ea : peval c a = 0) by (apply Hr; left; reflexivity).
    assert (Q : forall y, peval q y = 0).
    { apply IH; [exact Hn'|simpl in Hl; lia|]. intros y Hy. specialize (Hq y). rewrite Ea, (Hr y (or_intror Hy)) in Hq.
      assert (y - a <> 0) by (intro Z; apply Ha; replace a with y by lra; exact Hy).
      apply Rmult_eq_reg_l with (y - a); [lra|assumption]. }
    specialize (Hq x). rewrite Q, Ea in Hq. lra.
Qed.
Lemma resid_nonneg f xs : forall ys, 0 <= resid f xs ys.
Proof. induction xs as [|x xs IH]; intros [|y ys]; simpl; try lra. specialize (IH ys). pose proof (Rle_0_sqr (f x - y)) as Q. unfold Rsqr in Q. lra. Qed.
Lemma resid_zero f xs : forall ys, length ys = length xs -> resid f xs ys = 0 -> map f xs = ys.
Proof.
  induction xs as [|x xs IH]; intros [|y ys] Hl H; simpl in *; try discriminate; [reflexivity|].
  pose proof (resid_nonneg f xs ys). assert (Z : f x - y = 0) by (pose proof (Rle_0_sqr (f x - y)) as Q; unfold Rsqr in Q; assert (Z2 : (f x - y) * (f x - y) = 0) by lra; apply Rmult_integral in Z2; tauto). f_equal; [lra|]. apply IH; [lia|]. rewrite Z in H. lra.
Qed.
Lemma resid_exact f xs : resid f xs (map f xs) = 0.
Proof. induction xs as [|x xs IH]; simpl; [reflexivity|]. rewrite IH. ring. Qed.

Lemma pad_poly c n : (length c <= n)%nat -> exists c', length c' = n /\ forall x, poly1d c' x = peval c x.
Proof.
  intros H. exists (rev (c ++ repeat 0 (n - length c))). split; [rewrite rev_length, app_length, repeat_length; lia|].
  intro x. rewrite poly1d_peval, rev_involutive. generalize (n - length c)%nat as k. intro k. clear H. induction c as [|a c IH]; simpl.
  - induction k as [|k IH]; simpl; [reflexivity|]. rewrite IH. ring.
  - rewrite IH. reflexivity.
Qed.

Lemma fit_exact polyfit xs c : polyfit_ok polyfit xs -> NoDup xs -> (length c <= length xs)%nat ->
  poly1d (polyfit xs (map (peval c) xs) (length xs - 1)%nat) 0 = peval c 0.
Proof.
  intros Hp Hn Hl. destruct (Hp (map (peval c) xs) (map_length _ _)) as [L M]. set (f := polyfit xs (map (peval c) xs) (length xs - 1)%nat) in *.
  destruct (pad_poly c (length xs) Hl) as (c' & Lc' & Ec'). specialize (M c' Lc').
  assert (R0 : resid (poly1d c') xs (map (peval c) xs) = 0).
  { replace (map (peval c) xs) with (map (poly1d c') xs) by (apply map_ext; exact Ec'). apply resid_exact. }
  assert (RZ : resid (poly1d f) xs (map (peval c) xs) = 0) by (pose proof (resid_nonneg (poly1d f) xs (map (peval c) xs)); lra).
  apply resid_zero in RZ; [|apply map_length].
  assert (Z : forall x, peval (padd (rev f) (map (Rmult (-1)) c)) x = 0).
  { apply (roots xs); [exact Hn|rewrite padd_len, map_length, rev_length; lia|]. intros x Hx. rewrite peval_add, peval_scale, <- poly1d_peval.
    assert (E : poly1d f x = peval c x); [|lra].
    clearbody f. clear - RZ Hx. induction xs as [|y xs IH]; [destruct Hx|]. simpl in RZ. injection RZ as E1 E2. destruct Hx as [->|Hx]; [exact E1|apply IH; assumption]. }
  specialize (Z 0). rewrite peval_add, peval_scale, <- poly1d_peval in Z. lra.
Qed.

Lemma oseq_some {A} (l : list A) : osequence (map Some l) = Some l.
Proof. induction l as [|a l IH]; simpl; [reflexivity|]. rewrite IH. reflexivity. Qed.
Lemma oseq_map {A B} (f : A -> option B) g l : (forall a, In a l -> f a = Some (g a)) -> osequence (map f l) = Some (map g l).
Proof. intros H. induction l as [|a l IH]; simpl; [reflexivity|]. rewrite (H a (or_introl eq_refl)), IH; [reflexivity|]. intros; apply H; right; assumption. Qed.

(** C19. [curves] gives for every observable the list (one per parameter set) of noise curves as polynomials with at most as
    many coefficients as there are noise levels.  The data are the values of these curves at the noise levels, one row
    per level.  The result is the value of each curve at zero. *)
Definition measured (levels : list R) (curves : list (list R)) : list (list R) :=
  map (fun x => map (fun c => peval c x) curves) levels.
Theorem C19_zne : forall polyfit levels (observables : list (list (list R))),
  levels <> [] -> NoDup levels -> polyfit_ok polyfit levels ->
  (forall curves c, In curves observables -> In c curves -> (length c <= length levels)%nat) ->
  zne polyfit levels (map (measured levels) observables) = Some (map (map (fun c => peval c 0)) observables).
Proof.
  intros polyfit levels obs Hne Hn Hp Hl. unfold zne. rewrite map_map. apply oseq_map. intros curves Hc.
  unfold measured at 1. destruct levels as [|x0 lv] eqn:El; [contradiction|]. rewrite <- El in *.
  replace (map (fun x => map (fun c => peval c x) curves) levels) with (map (fun c => peval c x0) curves :: map (fun x => map (fun c => peval c x) curves) lv) by (rewrite El; reflexivity).
  rewrite map_length.
  transitivity (osequence (map (fun p => Some (peval (nth p curves []) 0)) (seq 0 (length curves)))).
  - f_equal. apply map_ext_in. intros p Hin. apply in_seq in Hin. unfold zne_one.
    set (c := nth p curves []). assert (Ic : In c curves) by (apply nth_In; lia).
    replace (map (fun s => nth_error s p) (measured levels curves)) with (map Some (map (peval c) levels)).
    + rewrite oseq_some. f_equal. apply fit_exact; [exact Hp|exact Hn|apply (Hl curves c Hc Ic)].
    + unfold measured. rewrite !map_map. apply map_ext. intro x. rewrite nth_error_map.
      assert (Lp : (p < length curves)%nat) by lia. rewrite (nth_error_nth' curves [] Lp). reflexivity.
  - rewrite <- (map_map (fun p => nth p curves []) (fun c => Some (peval c 0))).
    assert (E : map (fun p => nth p curves []) (seq 0 (length curves)) = curves).
    { clear. induction curves as [|c l IH]; simpl; [reflexivity|]. f_equal. rewrite <- seq_shift, map_map. exact IH. }
    rewrite E. apply (oseq_map (fun c => Some (peval c 0))). reflexivity.
Qed.

(** With two levels the line through the two points is such a fit. *)
Definition line_fit (xs ys : list R) (deg : nat) : list R :=
  match xs, ys with [x1; x2], [y1; y2] => [(y2 - y1) / (x2 - x1); y1 - x1 * ((y2 - y1) / (x2 - x1))] | _, _ => [] end.
Example C19_case : polyfit_ok line_fit [1; 2] /\
  zne line_fit [1; 2] [measured [1; 2] [[5; -2]; [3]]] = Some [[5; 3]].
Proof.
  assert (P : polyfit_ok line_fit [1; 2]).
  { intros ys Hy. destruct ys as [|y1 [|y2 [|? ?]]]; try discriminate Hy. split; [reflexivity|]. intros c' _.
    apply Rle_trans with 0; [|apply resid_nonneg]. right. unfold line_fit, poly1d. simpl. field. }
  split; [exact P|]. change [measured [1; 2] [[5; -2]; [3]]] with (map (measured [1; 2]) [[[5; -2]; [3]]]). rewrite (C19_zne line_fit [1; 2] [[[5; -2]; [3]]]).
  - simpl. repeat f_equal; ring.
  - discriminate.
  - constructor; [simpl; intros [H|[]]; lra|]. constructor; [simpl; tauto|constructor].
  - exact P.
  - intros curves c [<- | []] [<- | [<- | []]]; simpl; lia.
Qed.
(** A curve of higher degree is not recovered: with two levels, x(x-1)(x-2)/1 + (x-1)(x-2) is extrapolated to 0 although its value at 0 is 2. *)
Theorem C19_degree_refuted : exists levels c polyfit, NoDup levels /\ polyfit_ok polyfit levels /\
  zne polyfit levels [measured levels [c]] <> Some [[peval c 0]].
Proof.
  exists [1; 2], [2; -3; 1], line_fit. split; [constructor; [simpl; intros [H|[]]; lra|]; constructor; [simpl; tauto|constructor]|]. split; [apply C19_case|].
  unfold zne, measured, zne_one. simpl. unfold poly1d, line_fit. simpl. intro H. injection H as H. lra.
Qed.
Print Assumptions C19_zne.
Print Assumptions C19_degree_refuted.
