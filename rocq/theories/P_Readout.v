(** C17, C18: readout mitigation. *)
From Coq Require Import Reals List ZArith Bool Lra Lia Permutation Sorted.
From Verif Require Import M_PSR M_Readout.
Import ListNotations.
Open Scope R_scope.

(** * Specification *)
Definition probability (q : list R) : Prop := (forall x, In x q -> 0 <= x) /\ rsum q = 1.
(** Squared Euclidean distance. *)
Fixpoint dist2 (p q : list R) : R := match p, q with x :: p', y :: q' => (x - y) * (x - y) + dist2 p' q' | _, _ => 0 end.
(** argsort returns the positions of the entries in non-decreasing order of value. *)
Definition nondecreasing (l : list R) : Prop := StronglySorted Rle l.
Definition argsort_ok (argsort : list R -> list nat) : Prop :=
  forall l, Permutation (argsort l) (seq 0 (length l)) /\ nondecreasing (map (fun i => nth i l 0) (argsort l)).

(** * The loop *)
Definition cut (lam x : R) : R := Rmax 0 (x + lam).
Lemma rsum_app a b : rsum (a ++ b) = rsum a + rsum b.
Proof. induction a as [|x a IH]; simpl; [ring|]. rewrite IH. ring. Qed.
Lemma rsum_repeat n : rsum (repeat 0 n) = 0.
Proof. induction n; simpl; [reflexivity|]. rewrite IHn. ring. Qed.
Lemma rsum_add c l : rsum (map (fun y => y + c) l) = rsum l + INR (length l) * c.
Proof.
  induction l as [|x l IH]; [simpl; ring|]. cbn [map rsum length]. rewrite IH, S_INR. ring.
Qed.
Lemma rsum_perm a b : Permutation a b -> rsum a = rsum b.
Proof. induction 1; simpl; lra. Qed.

Lemma loop_spec l : forall pre neg, nondecreasing (pre ++ l) -> rsum pre = neg -> neg <= 0 -> neg + rsum l = 1 ->
  (l <> [] -> forall y, In y pre -> y + neg / INR (length l) <= 0) ->
  exists lam, mle_loop (length pre) neg l = map (cut lam) (pre ++ l) /\ rsum (map (cut lam) (pre ++ l)) = 1.
Proof.
  induction l as [|x r IH]; intros pre neg Hs Hp Hneg H1 Hpre; [simpl in H1; lra|].
  assert (Lpos : 0 < INR (length (x :: r))) by (apply lt_0_INR; simpl; lia).
  cbn [mle_loop]. destruct (Rlt_dec (x + neg / INR (length (x :: r))) 0) as [L|L].
  - assert (Hx : forall y, In y pre -> y <= x).
    { intros y Hy. clear - Hs Hy. unfold nondecreasing in Hs. induction pre as [|z pre IHp]; [destruct Hy|]. simpl in Hs. inversion Hs as [|? ? A B]; subst.
      destruct Hy as [->|Hy]; [|apply IHp; assumption]. rewrite Forall_forall in B. apply B. apply in_or_app. right; left; reflexivity. }
    assert (Len : INR (length (x :: r)) = INR (length r) + 1) by (cbn [length]; apply S_INR).
    assert (Prod : x * INR (length (x :: r)) + neg < 0).
    { apply Rmult_lt_compat_r with (r := INR (length (x :: r))) in L; [|exact Lpos]. rewrite Rmult_plus_distr_r, Rmult_0_l in L.
      unfold Rdiv in L. rewrite Rmult_assoc, Rinv_l, Rmult_1_r in L by lra. exact L. }
    specialize (IH (pre ++ [x]) (neg + x)). rewrite app_length, Nat.add_1_r, <- app_assoc in IH. apply IH.
    + exact Hs.
    + rewrite rsum_app. simpl. lra.
    + rewrite Len in Prod. pose proof (pos_INR (length r)).
      destruct (Rle_dec x 0); [lra|]. assert (0 <= x * INR (length r)) by (apply Rmult_le_pos; lra). lra.
    + simpl in H1. lra.
    + intros Hr y Hy. assert (Rpos : 0 < INR (length r)) by (apply lt_0_INR; destruct r; [contradiction|simpl; lia]).
      assert (y <= x) by (apply in_app_or in Hy as [Hy|[->|[]]]; [apply Hx, Hy|apply Rle_refl]).
      assert (x + (neg + x) / INR (length r) <= 0); [|lra].
      apply Rmult_le_reg_r with (INR (length r)); [exact Rpos|]. rewrite Rmult_plus_distr_r, Rmult_0_l. unfold Rdiv. rewrite Rmult_assoc, Rinv_l, Rmult_1_r by lra. rewrite Len in Prod. lra.
  - set (lam := neg / INR (length (x :: r))) in *. exists lam.
    assert (E1 : map (cut lam) pre = repeat 0 (length pre)).
    { assert (Hz : forall y, In y pre -> cut lam y = 0).
      { intros y Hy. unfold cut. apply Rmax_left. apply Hpre; [discriminate|exact Hy]. }
      clear - Hz. induction pre as [|y pre IHp]; simpl; [reflexivity|]. rewrite (Hz y (or_introl eq_refl)), IHp; [reflexivity|]. intros; apply Hz; right; assumption. }
    assert (E2 : map (cut lam) (x :: r) = map (fun y => y + lam) (x :: r)).
    { apply map_ext_in. intros y Hy. unfold cut. apply Rmax_right.
      assert (x <= y); [|lra]. destruct Hy as [->|Hy]; [apply Rle_refl|].
      assert (Sx : nondecreasing (x :: r)).
      { clear - Hs. unfold nondecreasing in *. induction pre as [|z pre IHp]; [exact Hs|]. simpl in Hs. inversion Hs; auto. }
      inversion Sx as [|? ? A B]; subst. rewrite Forall_forall in B. apply B, Hy. }
    rewrite map_app, E1, E2. split; [reflexivity|]. rewrite rsum_app, rsum_repeat, rsum_add. unfold lam.
    replace (INR (length (x :: r)) * (neg / INR (length (x :: r)))) with neg by (field; lra). lra.
Qed.

(** * Undoing the sort *)
Lemma sorted_perm_eq (a b : list nat) : StronglySorted le a -> StronglySorted le b -> Permutation a b -> a = b.
Proof.
  revert b. induction a as [|x a IH]; intros b Ha Hb HP.
  - apply Permutation_nil in HP. congruence.
  - destruct b as [|y b]; [apply Permutation_sym, Permutation_nil in HP; discriminate|].
    inversion Ha as [|? ? A1 A2]; subst. inversion Hb as [|? ? B1 B2]; subst. rewrite Forall_forall in A2, B2.
    assert (E : x = y).
    { assert (Hx : In x (y :: b)) by (eapply Permutation_in; [exact HP|left; reflexivity]).
      assert (Hy : In y (x :: a)) by (eapply Permutation_in; [apply Permutation_sym, HP|left; reflexivity]).
      destruct Hx as [->|Hx]; [reflexivity|]. destruct Hy as [->|Hy]; [reflexivity|]. apply B2 in Hx. apply A2 in Hy. lia. }
    subst y. f_equal. apply IH; [assumption|assumption|]. eapply Permutation_cons_inv, HP.
Qed.
Lemma seq_sorted n : forall k, StronglySorted le (seq k n).
Proof. induction n as [|n IH]; intro k; simpl; constructor; [apply IH|]. apply Forall_forall. intros x Hx. apply in_seq in Hx. lia. Qed.
Lemma map_nth_seq {A} (l : list A) d : map (fun i => nth i l d) (seq 0 (length l)) = l.
Proof. induction l as [|a l IH]; simpl; [reflexivity|]. f_equal. rewrite <- seq_shift, map_map. exact IH. Qed.

Lemma unsort argsort p (g : R -> R) : argsort_ok argsort -> g 0 = g 0 ->
  map (fun i => nth i (map g (map (fun i => nth i p 0) (argsort p))) 0) (argsort (map INR (argsort p))) = map g p.
Proof.
  intros Ha _. destruct (Ha p) as [P1 _]. destruct (Ha (map INR (argsort p))) as [P2 S2]. rewrite map_length in P2.
  set (idx := argsort p) in *. set (re := argsort (map INR idx)) in *.
  assert (Lidx : length idx = length p) by (rewrite (Permutation_length P1); apply seq_length).
  assert (E : map (fun i => nth i idx 0%nat) re = seq 0 (length p)).
  { apply sorted_perm_eq.
    - assert (Q : map (fun i => nth i (map INR idx) 0) re = map INR (map (fun i => nth i idx 0%nat) re)).
      { rewrite map_map. apply map_ext_in. intros i Hi. rewrite (nth_indep _ 0 (INR 0)); [apply map_nth|].
        rewrite map_length. apply (Permutation_in _ P2) in Hi. apply in_seq in Hi. lia. }
      rewrite Q in S2. clear - S2. unfold nondecreasing in S2. induction (map (fun i => nth i idx 0%nat) re) as [|x l IHl]; constructor; simpl in S2; inversion S2 as [|? ? A B]; subst.
      + apply IHl, A.
      + rewrite Forall_forall in *. intros y Hy. apply INR_le. apply B. apply in_map, Hy.
    - apply seq_sorted.
    - eapply Permutation_trans; [|exact P1]. eapply Permutation_trans; [apply Permutation_map, P2|]. rewrite map_nth_seq. apply Permutation_refl. }
  transitivity (map (fun j => g (nth j p 0)) (map (fun i => nth i idx 0%nat) re)).
  - rewrite (map_map (fun i => nth i idx 0%nat) (fun j => g (nth j p 0)) re). apply map_ext_in. intros i Hi. assert (Li : (i < length idx)%nat) by (apply (Permutation_in _ P2) in Hi; apply in_seq in Hi; lia).
    rewrite map_map. rewrite (nth_indep _ 0 (g (nth 0%nat p 0))) by (rewrite map_length; exact Li).
    apply (map_nth (fun j => g (nth j p 0)) idx 0%nat i).
  - rewrite E. rewrite <- (map_map (fun j => nth j p 0) g). rewrite map_nth_seq. reflexivity.
Qed.

Lemma mle_form argsort p : argsort_ok argsort -> rsum p = 1 -> exists lam, mle_solve argsort p = map (cut lam) p /\ rsum (map (cut lam) p) = 1.
Proof.
  intros Ha Hp. destruct (Ha p) as [P1 S1].
  assert (HP : Permutation (map (fun i => nth i p 0) (argsort p)) p).
  { eapply Permutation_trans; [apply Permutation_map, P1|]. rewrite map_nth_seq. apply Permutation_refl. }
  destruct (loop_spec (map (fun i => nth i p 0) (argsort p)) [] 0) as (lam & E & HS); simpl; try (reflexivity || lra || (exact S1)).
  - rewrite Rplus_0_l. rewrite (rsum_perm _ _ HP). exact Hp.
  - intros _ y [].
  - exists lam. unfold mle_solve. simpl in E. rewrite E. rewrite (unsort argsort p (cut lam) Ha eq_refl). split; [reflexivity|].
    rewrite <- HS. apply rsum_perm. simpl. apply Permutation_map, Permutation_sym, HP.
Qed.

(** * C17 *)
Lemma closest lam : forall p r, length r = length p -> (forall x, In x r -> 0 <= x) ->
  dist2 p (map (cut lam) p) + dist2 r (map (cut lam) p) + 2 * lam * (rsum r - rsum (map (cut lam) p)) <= dist2 p r.
Proof.
  induction p as [|x p IH]; intros [|y r] Hl Hr; try discriminate; [simpl; lra|].
  simpl. specialize (IH r ltac:(simpl in Hl; lia) (fun z Hz => Hr z (or_intror Hz))). pose proof (Hr y (or_introl eq_refl)) as Hy.
  assert (K : (x - cut lam x) * (x - cut lam x) + (y - cut lam x) * (y - cut lam x) + 2 * lam * (y - cut lam x) <= (x - y) * (x - y)).
  { unfold cut. destruct (Rle_dec 0 (x + lam)).
    - rewrite Rmax_right by lra. right. ring.
    - rewrite Rmax_left by lra. nra. }
  lra.
Qed.
Lemma dist2_nonneg : forall p q, 0 <= dist2 p q.
Proof. induction p as [|x p IH]; intros [|y q]; simpl; try lra. specialize (IH q). pose proof (Rle_0_sqr (x - y)) as Q. unfold Rsqr in Q. lra. Qed.
Lemma dist2_zero : forall p q, length p = length q -> dist2 p q = 0 -> p = q.
Proof.
  induction p as [|x p IH]; intros [|y q] Hl H; try discriminate; [reflexivity|]. simpl in H. pose proof (dist2_nonneg p q). pose proof (Rle_0_sqr (x - y)) as Q. unfold Rsqr in Q.
  assert (Z : (x - y) * (x - y) = 0) by lra. apply Rmult_integral in Z. f_equal; [lra|]. apply IH; [simpl in Hl; lia|]. lra.
Qed.

(** The result is a probability vector, and strictly closer to the input than any other probability vector. *)
Theorem C17_mle : forall argsort p, argsort_ok argsort -> rsum p = 1 ->
  length (mle_solve argsort p) = length p /\ probability (mle_solve argsort p) /\
  forall r, length r = length p -> probability r -> r <> mle_solve argsort p -> dist2 p (mle_solve argsort p) < dist2 p r.
Proof.
  intros argsort p Ha Hp. destruct (mle_form argsort p Ha Hp) as (lam & E & S1). rewrite E. split; [apply map_length|]. split.
  - split; [|exact S1]. intros x Hx. apply in_map_iff in Hx as (y & <- & _). apply Rmax_l.
  - intros r Hl [Hr1 Hr2] Hne. pose proof (closest lam p r Hl Hr1) as K. rewrite Hr2, S1 in K. pose proof (dist2_nonneg r (map (cut lam) p)) as N.
    destruct (Req_dec (dist2 r (map (cut lam) p)) 0) as [Z|Z]; [|lra]. exfalso. apply Hne, dist2_zero; [rewrite map_length; exact Hl|exact Z].
Qed.
(** A probability vector is left unchanged. *)
Theorem C17_fixpoint : forall argsort p, argsort_ok argsort -> probability p -> mle_solve argsort p = p.
Proof.
  intros argsort p Ha [H0 H1]. destruct (C17_mle argsort p Ha H1) as (L & P & M).
  destruct (list_eq_dec Req_EM_T p (mle_solve argsort p)) as [E|N]; [symmetry; exact E|]. exfalso.
  specialize (M p eq_refl (conj H0 H1) N). assert (Z : dist2 p p = 0) by (clear; induction p; simpl; [reflexivity|rewrite IHp; ring]).
  rewrite Z in M. pose proof (dist2_nonneg p (mle_solve argsort p)). lra.
Qed.

(** An argsort: insertion sort of the positions. *)
Fixpoint ins_at (l : list R) (i : nat) (s : list nat) : list nat :=
  match s with [] => [i] | j :: r => if Rle_dec (nth i l 0) (nth j l 0) then i :: s else j :: ins_at l i r end.
Definition isort (l : list R) : list nat := fold_right (ins_at l) [] (seq 0 (length l)).
Lemma ins_perm l i s : Permutation (ins_at l i s) (i :: s).
Proof. induction s as [|j s IH]; simpl; [apply Permutation_refl|]. destruct (Rle_dec _ _); [apply Permutation_refl|]. eapply Permutation_trans; [apply perm_skip, IH|apply perm_swap]. Qed.
Lemma ins_sorted l i s : nondecreasing (map (fun k => nth k l 0) s) -> nondecreasing (map (fun k => nth k l 0) (ins_at l i s)).
Proof.
  unfold nondecreasing. induction s as [|j s IH]; simpl; intros H; [repeat constructor|]. inversion H as [|? ? A B]; subst. rewrite Forall_forall in B.
  destruct (Rle_dec (nth i l 0) (nth j l 0)) as [L|L]; simpl.
  - constructor; [exact H|]. constructor; [exact L|]. apply Forall_forall. intros x Hx. specialize (B x Hx). lra.
  - constructor; [apply IH, A|]. apply Forall_forall. intros x Hx. apply in_map_iff in Hx as (k & <- & Hk). apply (Permutation_in _ (ins_perm l i s)) in Hk. destruct Hk as [->|Hk]; [lra|]. apply B, (in_map (fun k => nth k l 0)), Hk.
Qed.
Example C17_argsort_exists : argsort_ok isort.
Proof.
  intros l. unfold isort. induction (seq 0 (length l)) as [|i s [IH1 IH2]]; simpl; [split; constructor|]. split; [|apply ins_sorted, IH2].
  eapply Permutation_trans; [apply ins_perm|]. apply perm_skip, IH1.
Qed.
(** The closest distribution to (6/10, 6/10, -2/10) is (1/2, 1/2, 0). *)
Example C17_case : mle_solve isort [6 / 10; 6 / 10; - 2 / 10] = [1 / 2; 1 / 2; 0].
Proof.
  destruct (C17_mle isort [6 / 10; 6 / 10; - 2 / 10] C17_argsort_exists ltac:(simpl; lra)) as (L & [P1 P2] & M).
  destruct (list_eq_dec Req_EM_T [1 / 2; 1 / 2; 0] (mle_solve isort [6 / 10; 6 / 10; - 2 / 10])) as [E|N]; [symmetry; exact E|]. exfalso.
  assert (PP : probability [1 / 2; 1 / 2; 0]) by (split; [intros x [<- | [<- | [<- | []]]]; lra|simpl; lra]).
  specialize (M [1 / 2; 1 / 2; 0] eq_refl PP N). destruct (mle_solve isort [6 / 10; 6 / 10; - 2 / 10]) as [|a [|b [|c [|? ?]]]]; try discriminate L. simpl in M, P2.
  pose proof (P1 c ltac:(simpl; auto)) as Hc. assert (Ea : a = 1 - b - c) by lra. subst a.
  pose proof (Rle_0_sqr (1 - b - c - b)) as Q1. pose proof (Rle_0_sqr c) as Q2. unfold Rsqr in Q1, Q2. lra.
Qed.
Print Assumptions C17_mle.
Print Assumptions C17_fixpoint.

(** * C18 *)
Lemma Rabs_between x y : Rabs x <= y -> - y <= x <= y.
Proof. unfold Rabs. destruct (Rcase_abs x); lra. Qed.
Lemma rint_err x : Rabs (x - IZR (rint x)) <= 1 / 2.
Proof.
  unfold rint. destruct (base_Int_part x) as [B1 B2]. set (z := Int_part x) in *.
  destruct (Rlt_dec (x - IZR z) (1 / 2)); [rewrite Rabs_pos_eq; lra|].
  destruct (Rlt_dec (1 / 2) (x - IZR z)); [rewrite plus_IZR; rewrite Rabs_left1; lra|].
  destruct (Z.even z); [rewrite Rabs_pos_eq; lra|rewrite plus_IZR, Rabs_left1; lra].
Qed.
Lemma rint_near x z : Rabs (x - IZR z) < 1 / 2 -> rint x = z.
Proof.
  intros H. pose proof (rint_err x) as E. apply Rabs_def2 in H. apply Rabs_between in E.
  assert (A : (rint x - z < 1)%Z) by (apply lt_IZR; rewrite minus_IZR; lra). assert (B : (-1 < rint x - z)%Z) by (apply lt_IZR; rewrite minus_IZR; lra). lia.
Qed.
Lemma rint_pos x : 0 <= x -> (0 <= rint x)%Z.
Proof. intros H. pose proof (rint_err x) as E. apply Rabs_between in E. assert (A : (-1 < rint x)%Z) by (apply lt_IZR; lra). lia. Qed.
Lemma rounded_sum l : Rabs (rsum l - IZR (zsum (map rint l))) <= INR (length l) / 2.
Proof.
  induction l as [|x l IH]; [simpl; rewrite Rminus_0_r, Rabs_R0; lra|]. cbn [rsum map zsum length]. rewrite plus_IZR, S_INR.
  replace (x + rsum l - (IZR (rint x) + IZR (zsum (map rint l)))) with ((x - IZR (rint x)) + (rsum l - IZR (zsum (map rint l)))) by ring.
  eapply Rle_trans; [apply Rabs_triang|]. pose proof (rint_err x). lra.
Qed.
Lemma zsum_sub_at l d : forall i, (i < length l)%nat -> zsum (sub_at i d l) = (zsum l - d)%Z.
Proof. induction l as [|x l IH]; intros i Hi; [simpl in Hi; lia|]. destruct i as [|i]; simpl; [lia|]. rewrite IH; [lia|simpl in Hi; lia]. Qed.
Lemma sub_at_len l d i : length (sub_at i d l) = length l.
Proof. revert i; induction l as [|x l IH]; intros [|i]; simpl; auto. Qed.
Lemma argmax_from_spec l : forall best ibest i whole, (ibest < i)%nat -> nth ibest whole 0%Z = best -> (forall k, (k < i)%nat -> (nth k whole 0 <= best)%Z) ->
  skipn i whole = l -> (i + length l = length whole)%nat ->
  (argmax_from best ibest i l < length whole)%nat /\ forall k, (k < length whole)%nat -> (nth k whole 0 <= nth (argmax_from best ibest i l) whole 0)%Z.
Proof.
  induction l as [|x l IH]; intros best ibest i whole Hi Hb Hk Hs Hl; simpl.
  - simpl in Hl. split; [lia|]. intros k Hlt. rewrite Hb. apply Hk. lia.
  - assert (Hx : nth i whole 0%Z = x) by (rewrite <- (firstn_skipn i whole) at 1; rewrite app_nth2; rewrite firstn_length_le by (simpl in Hl; lia); [rewrite Nat.sub_diag, Hs; reflexivity|lia]).
    assert (Hs' : skipn (S i) whole = l).
    { clear - Hs. revert whole Hs. induction i as [|i IHi]; intros [|w whole] Hs; simpl in *; try discriminate; [congruence|]. destruct whole as [|v whole]; [destruct i; simpl in Hs; discriminate|]. apply (IHi (v :: whole)). exact Hs. }
    destruct (Z.ltb_spec best x) as [L|L].
    + apply IH; [lia|exact Hx| |exact Hs'|simpl in Hl; lia]. intros k Hk'. destruct (Nat.eq_dec k i) as [->|]; [lia|]. specialize (Hk k ltac:(lia)). lia.
    + apply IH; [lia|exact Hb| |exact Hs'|simpl in Hl; lia]. intros k Hk'. destruct (Nat.eq_dec k i) as [->|]; [lia|]. apply Hk. lia.
Qed.
Lemma argmax_spec l : l <> [] -> (argmax l < length l)%nat /\ forall k, (k < length l)%nat -> (nth k l 0 <= nth (argmax l) l 0)%Z.
Proof.
  destruct l as [|x l]; [congruence|]. intros _. unfold argmax. apply (argmax_from_spec l x 0 1 (x :: l)); simpl; try lia; [|reflexivity].
  intros k Hk. replace k with 0%nat by lia. lia.
Qed.

(** Whatever the probabilities, the counts add up to the number of shots, provided the division is defined. *)
Theorem C18_total : forall p n_shots c, p <> [] -> to_counts p n_shots = Some c -> zsum c = n_shots /\ length c = length p.
Proof.
  intros p n c Hp H. unfold to_counts in H. set (c0 := map (fun p => rint (p * IZR n)) p) in *.
  destruct (renormalize_counts c0 n) as [c1|] eqn:ER; [|discriminate].
  assert (L : length c1 = length p).
  { unfold renormalize_counts in ER. destruct (Z.eqb (zsum c0) n); [injection ER as <-; apply map_length|]. destruct (Z.eqb _ 0); [discriminate|]. injection ER as <-. unfold c0. rewrite !map_length. reflexivity. }
  destruct (Z.eqb_spec (zsum c1) n) as [E|N]; injection H as <-; [auto|].
  assert (Hne : c1 <> []) by (intros ->; destruct p; [contradiction|discriminate L]).
  rewrite zsum_sub_at by apply (argmax_spec c1 Hne). rewrite sub_at_len. split; [lia|exact L].
Qed.

Lemma zsum_bound l m : (forall x, In x l -> (x <= m)%Z) -> (zsum l <= Z.of_nat (length l) * m)%Z.
Proof. induction l as [|x l IH]; intros H; [simpl; lia|]. cbn [zsum length]. specialize (IH (fun y Hy => H y (or_intror Hy))). specialize (H x (or_introl eq_refl)). lia. Qed.
Lemma in_sub_at l d : forall i y, In y (sub_at i d l) -> In y l \/ y = (nth i l 0 - d)%Z.
Proof. induction l as [|x l IH]; intros i y H; [destruct i; destruct H|]. destruct i as [|i]; simpl in H; destruct H as [<-|H]; simpl; auto. destruct (IH i y H); auto. Qed.

(** With enough shots (2 n >= m (m+1) for m outcomes) the counts are always defined, non-negative and add up to the shots. *)
Theorem C18_counts : forall p n_shots, probability p -> (0 < n_shots)%Z ->
  (Z.of_nat (length p) * (Z.of_nat (length p) + 1) <= 2 * n_shots)%Z ->
  exists c, to_counts p n_shots = Some c /\ length c = length p /\ (forall x, In x c -> (0 <= x)%Z) /\ zsum c = n_shots.
Proof.
  intros p n [P0 P1] Hn Hm. set (m := Z.of_nat (length p)) in *.
  assert (Hne : p <> []) by (intros ->; simpl in P1; lra).
  assert (Hm1 : (1 <= m)%Z) by (unfold m; destruct p; [contradiction|simpl; lia]).
  assert (Rn : 0 < IZR n) by (apply IZR_lt; exact Hn).
  set (c0 := map (fun p => rint (p * IZR n)) p).
  assert (C0 : forall x, In x c0 -> (0 <= x)%Z).
  { intros x Hx. apply in_map_iff in Hx as (y & <- & Hy). apply rint_pos. apply Rmult_le_pos; [apply P0, Hy|lra]. }
  assert (SM : forall (l : list R) k, INR (length l) = IZR m -> rsum l = IZR n -> k = zsum (map rint l) -> (2 * (k - n) <= m)%Z /\ (- m <= 2 * (k - n))%Z).
  { intros l k Hl Hs ->. pose proof (rounded_sum l) as B. rewrite Hs, Hl in B. apply Rabs_between in B. split; apply le_IZR; rewrite ?opp_IZR, mult_IZR, minus_IZR; lra. }
  assert (IM : INR (length p) = IZR m) by (unfold m; apply INR_IZR_INZ).
  assert (D0 : (2 * (zsum c0 - n) <= m)%Z /\ (- m <= 2 * (zsum c0 - n))%Z).
  { apply (SM (map (fun x => x * IZR n) p)).
    - rewrite map_length. exact IM.
    - assert (HH : rsum (map (fun x => x * IZR n) p) = rsum p * IZR n) by (clear; induction p; simpl; [ring|rewrite IHp; ring]). rewrite HH, P1. ring.
    - unfold c0. rewrite map_map. reflexivity. }
  assert (NN : forall l e, length l = length p -> (forall x, In x l -> (0 <= x)%Z) -> zsum l = (n + e)%Z -> (2 * e <= m)%Z -> exists x, In x l /\ (e <= x)%Z /\ (0 < e -> e < x)%Z).
  { intros l e Hl Hl0 Hs He. assert (Hl' : l <> []) by (intros ->; destruct p; [contradiction|discriminate Hl]).
    destruct (argmax_spec l Hl') as [A1 A2]. exists (nth (argmax l) l 0%Z). split; [apply nth_In, A1|].
    assert (B : (zsum l <= m * nth (argmax l) l 0)%Z).
    { unfold m. rewrite <- Hl. apply zsum_bound. intros x Hx. apply In_nth with (d := 0%Z) in Hx as (k & Hk & <-). apply A2, Hk. }
    pose proof (Hl0 _ (nth_In l 0%Z A1)). split; [destruct (Z.le_gt_cases e 0); nia|]. intros He0. nia. }
  unfold to_counts. fold c0. unfold renormalize_counts. destruct (Z.eqb_spec (zsum c0) n) as [E0|N0].
  - rewrite E0, Z.eqb_refl. exists c0. assert (L0 : length c0 = length p) by (unfold c0; apply map_length). auto.
  - set (d := (zsum c0 - n)%Z) in *. rewrite map_map. set (c1 := map (fun x => if (x - d <? 0)%Z then 0%Z else (x - d)%Z) c0).
    assert (L1 : length c1 = length p) by (unfold c1, c0; rewrite !map_length; reflexivity).
    assert (C1 : forall x, In x c1 -> (0 <= x)%Z).
    { intros x Hx. apply in_map_iff in Hx as (y & <- & _). destruct (Z.ltb_spec (y - d) 0); lia. }
    assert (S1 : (0 < zsum c1)%Z).
    { assert (Hex : exists x, In x c1 /\ (0 < x)%Z).
      { destruct (NN c0 d) as (x & X1 & X2 & X3); [unfold c0; apply map_length|exact C0|unfold d; lia|unfold d in *; lia|].
        exists (if (x - d <? 0)%Z then 0%Z else (x - d)%Z). split; [apply (in_map (fun x => if (x - d <? 0)%Z then 0%Z else (x - d)%Z)), X1|].
        destruct (Z.ltb_spec (x - d) 0); [lia|]. destruct (Z.lt_trichotomy d 0) as [|[|]]; [specialize (C0 x X1); lia|unfold d in *; lia|specialize (X3 ltac:(lia)); lia]. }
      destruct Hex as (x & X1 & X2). clear - C1 X1 X2. induction c1 as [|y l IH]; [destruct X1|]. simpl.
      assert (0 <= zsum l)%Z by (clear - C1; assert (Q : forall x, In x l -> (0 <= x)%Z) by (intros; apply C1; right; assumption); clear C1; induction l as [|z l IHl]; [simpl; lia|]; simpl; specialize (IHl (fun x Hx => Q x (or_intror Hx))); specialize (Q z (or_introl eq_refl)); lia).
      pose proof (C1 y (or_introl eq_refl)). destruct X1 as [->|X1]; [lia|]. specialize (IH (fun x Hx => C1 x (or_intror Hx)) X1). lia. }
    destruct (Z.eqb_spec (zsum c1) 0) as [Z1|_]; [lia|].
    set (c2 := map (fun c => rint (IZR c * (IZR n / IZR (zsum c1)))) c1).
    assert (L2 : length c2 = length p) by (unfold c2; rewrite map_length; exact L1).
    assert (R1 : 0 < IZR (zsum c1)) by (apply IZR_lt; exact S1).
    assert (C2 : forall x, In x c2 -> (0 <= x)%Z).
    { intros x Hx. apply in_map_iff in Hx as (y & <- & Hy). apply rint_pos. apply Rmult_le_pos; [apply IZR_le, C1, Hy|]. apply Rmult_le_pos; [lra|left; apply Rinv_0_lt_compat; exact R1]. }
    assert (D2 : (2 * (zsum c2 - n) <= m)%Z /\ (- m <= 2 * (zsum c2 - n))%Z).
    { apply (SM (map (fun c => IZR c * (IZR n / IZR (zsum c1))) c1)).
      - rewrite map_length, L1. exact IM.
      - assert (HH : forall k l, rsum (map (fun c => IZR c * k) l) = IZR (zsum l) * k) by (intros k l; induction l as [|x l IH]; simpl; [ring|rewrite IH, plus_IZR; ring]). rewrite HH. field. lra.
      - unfold c2. rewrite map_map. reflexivity. }
    eexists. split; [reflexivity|]. destruct (Z.eqb_spec (zsum c2) n) as [E2|N2]; [auto|].
    assert (H2 : c2 <> []) by (intros E; rewrite E in L2; destruct p; [contradiction|discriminate L2]).
    destruct (argmax_spec c2 H2) as [A1 A2]. rewrite sub_at_len. split; [exact L2|]. split.
    + intros x Hx. apply in_sub_at in Hx as [Hx| ->]; [apply C2, Hx|].
      destruct (NN c2 (zsum c2 - n)%Z L2 C2 ltac:(lia) ltac:(lia)) as (x & X1 & X2 & _).
      apply In_nth with (d := 0%Z) in X1 as (k & Hk & <-). specialize (A2 k Hk). lia.
    + rewrite zsum_sub_at by exact A1. lia.
Qed.

(** The counter: total number of shots, distinct outcomes, positive counts. *)
Lemma counter_total c : (forall x, In x c -> (0 <= x)%Z) -> zsum (map snd (counter_of c)) = zsum c.
Proof.
  unfold counter_of. generalize 0%nat as k. induction c as [|x c IH]; intros k H; simpl; [reflexivity|].
  specialize (IH (S k) (fun y Hy => H y (or_intror Hy))). specialize (H x (or_introl eq_refl)).
  destruct (Z.ltb_spec 0 x); simpl; rewrite IH; lia.
Qed.
Theorem C18_mitigated_counter : forall argsort v n_shots, argsort_ok argsort -> rsum v = 1 -> (0 < n_shots)%Z ->
  (Z.of_nat (length v) * (Z.of_nat (length v) + 1) <= 2 * n_shots)%Z ->
  exists counter, mitigate_mle argsort v n_shots = Some counter /\ zsum (map snd counter) = n_shots /\
    NoDup (map fst counter) /\ forall k c, In (k, c) counter -> (k < length v)%nat /\ (0 < c)%Z.
Proof.
  intros argsort v n Ha Hv Hn Hm. destruct (C17_mle argsort v Ha Hv) as (L & P & _). rewrite <- L in Hm.
  destruct (C18_counts _ n P Hn Hm) as (c & E & Lc & C0 & S). unfold mitigate_mle. rewrite E. eexists. split; [reflexivity|].
  split; [rewrite counter_total; assumption|]. split.
  - unfold counter_of. rewrite Lc, L. clear - Lc L. rewrite L in Lc. revert Lc. generalize (length v) as m. intros m Lc. 
    assert (G : forall k (c : list Z), NoDup (map fst (filter (fun kc => (0 <? snd kc)%Z) (combine (seq k (length c)) c)))).
    { clear. intros k c. revert k. induction c as [|x c IH]; intro k; simpl; [constructor|]. destruct (0 <? x)%Z; simpl; [|apply IH]. constructor; [|apply IH].
      intros H. apply in_map_iff in H as ((a & b) & E & H). simpl in E. subst a. apply filter_In in H as [H _]. apply in_combine_l in H. apply in_seq in H. lia. }
    rewrite <- Lc. apply G.
  - intros k x Hx. unfold counter_of in Hx. apply filter_In in Hx as [H1 H2]. apply in_combine_l in H1. apply in_seq in H1. simpl in H2. apply Z.ltb_lt in H2. lia.
Qed.
Example C18_case : exists c, to_counts [1 / 2; 1 / 4; 1 / 4; 0] 10 = Some c /\ zsum c = 10%Z.
Proof.
  destruct (C18_counts [1 / 2; 1 / 4; 1 / 4; 0] 10) as (c & E & _ & _ & S); [split; [intros x [<- | [<- | [<- | [<- | []]]]]; lra|simpl; lra]|lia|simpl; lia|]. eauto.
Qed.
(** Too few shots: seven outcomes of probability 11/80 and one of 3/80 with four shots divide zero by zero. *)
Theorem C18_few_shots_refuted : exists p n_shots, probability p /\ (0 < n_shots)%Z /\ to_counts p n_shots = None.
Proof.
  exists (repeat (11 / 80) 7 ++ [3 / 80]), 4%Z. split; [|split; [lia|]].
  - split; [|simpl; lra]. intros x Hx. apply in_app_or in Hx as [Hx|[<- | []]]; [apply repeat_spec in Hx; subst; lra|lra].
  - unfold to_counts.
    assert (E : map (fun p => rint (p * 4)) (repeat (11 / 80) 7 ++ [3 / 80]) = [1; 1; 1; 1; 1; 1; 1; 0]%Z).
    { simpl. rewrite (rint_near (11 / 80 * 4) 1), (rint_near (3 / 80 * 4) 0); [reflexivity|rewrite Rabs_pos_eq; lra|rewrite Rabs_left; lra]. }
    rewrite E. reflexivity.
Qed.
Print Assumptions C18_total.
Print Assumptions C18_counts.
Print Assumptions C18_mitigated_counter.
Print Assumptions C18_few_shots_refuted.

(** * From the raw counts to the mitigated counts *)
Lemma dot_app r1 : forall v1 r2 v2, length r1 = length v1 -> dot (r1 ++ r2) (v1 ++ v2) = dot r1 v1 + dot r2 v2.
Proof. induction r1 as [|x r1 IH]; intros [|y v1] r2 v2 H; try discriminate; simpl; [ring|]. rewrite IH by (simpl in H; lia). ring. Qed.
Lemma dot_scale a r : forall v, dot (map (fun b => a * b) r) v = a * dot r v.
Proof. induction r as [|x r IH]; intros [|y v]; simpl; try ring. rewrite IH. ring. Qed.
Lemma dot_kron rb : forall ra vs, (forall v, In v vs -> length v = length rb) -> length vs = length ra ->
  dot (kron_rows ra rb) (concat vs) = dot ra (map (dot rb) vs).
Proof.
  induction ra as [|a ra IH]; intros [|v vs] Hv Hl; try discriminate; simpl; [reflexivity|].
  unfold kron_rows. cbn [flat_map]. rewrite dot_app by (rewrite map_length; symmetry; apply Hv; left; reflexivity).
  rewrite dot_scale. f_equal. apply IH; [intros w Hw; apply Hv; right; exact Hw|simpl in Hl; lia].
Qed.
Lemma dot_lin (B : list (list R)) : forall ra vs, rsum (map (fun rb => dot ra (map (dot rb) vs)) B) = dot ra (map (fun v => rsum (map (fun rb => dot rb v) B)) vs).
Proof.
  induction ra as [|a ra IH]; intros [|v vs]; simpl; try (clear; induction B as [|rb B IHB]; simpl; [ring|rewrite IHB; ring]).
  rewrite <- IH. clear IH. induction B as [|rb B IHB]; simpl; [ring|]. rewrite IHB. ring.
Qed.
Lemma chunks b : forall a (v : list R), length v = (a * b)%nat -> exists vs, v = concat vs /\ length vs = a /\ forall w, In w vs -> length w = b.
Proof.
  induction a as [|a IH]; intros v Hv.
  - destruct v; [|discriminate]. exists []. split; [reflexivity|]. split; [reflexivity|]. intros w [].
  - destruct (IH (skipn b v)) as (vs & E & L & Hw); [rewrite skipn_length; simpl in Hv; lia|]. exists (firstn b v :: vs). simpl. rewrite <- E, firstn_skipn. split; [reflexivity|]. split; [congruence|].
    intros w [<- | Hin]; [apply firstn_length_le; simpl in Hv; lia|apply Hw, Hin].
Qed.
(** A matrix with rows of length [c] keeps the total of every vector (its columns add up to one). *)
Definition keeps_total (c : nat) (M : list (list R)) : Prop :=
  length M = c /\ (forall r, In r M -> length r = c) /\ forall v, length v = c -> rsum (matvec M v) = rsum v.
Lemma rsum_concat ls : rsum (concat ls) = rsum (map rsum ls).
Proof. induction ls as [|l ls IH]; simpl; [reflexivity|]. rewrite rsum_app, IH. reflexivity. Qed.
Lemma rsum_flat {A} (f : A -> list R) l : rsum (flat_map f l) = rsum (map (fun x => rsum (f x)) l).
Proof. rewrite flat_map_concat_map, rsum_concat, map_map. reflexivity. Qed.
Lemma kron_keeps a b A B : (0 < a)%nat -> keeps_total a A -> keeps_total b B -> keeps_total (a * b) (np_kron A B).
Proof.
  intros Ha (A1 & A2 & A3) (B1 & B2 & B3). split; [|split].
  - unfold np_kron. rewrite <- A1, <- B1. clear. induction A as [|ra A IH]; simpl; [reflexivity|]. rewrite app_length, map_length, IH. reflexivity.
  - intros r Hr. unfold np_kron in Hr. apply in_flat_map in Hr as (ra & H1 & H2). apply in_map_iff in H2 as (rb & <- & H3).
    rewrite <- (A2 ra H1), <- (B2 rb H3). unfold kron_rows. clear. induction ra as [|x ra IH]; simpl; [reflexivity|]. rewrite app_length, map_length, IH. reflexivity.
  - intros v Hv. destruct (chunks b a v Hv) as (vs & -> & L & Hw).
    transitivity (rsum (matvec A (map rsum vs))); [|rewrite A3 by (rewrite map_length; exact L); symmetry; apply rsum_concat].
    unfold matvec, np_kron. rewrite flat_map_concat_map, concat_map, map_map, rsum_concat, map_map. f_equal. apply map_ext_in. intros ra Hra.
    rewrite map_map. rewrite (map_ext_in _ (fun rb => dot ra (map (dot rb) vs))).
    + rewrite dot_lin. f_equal. apply map_ext_in. intros w Hin. apply (B3 w (Hw w Hin)).
    + intros rb Hrb. apply dot_kron; [intros w Hin; rewrite (Hw w Hin); symmetry; apply B2, Hrb|]. rewrite (A2 ra Hra). exact L.
Qed.

(** A 2x2 confusion matrix (entry (i,j): probability of reading i when the state is j) and its inverse. *)
Definition column_stochastic (K : list (list R)) : Prop := exists a b, K = [[a; b]; [1 - a; 1 - b]].
Definition inverse_of (K L : list (list R)) : Prop :=
  length L = 2%nat /\ (forall r, In r L -> length r = 2%nat) /\ forall v, length v = 2%nat -> matvec K (matvec L v) = v.
Lemma inverse_keeps K L : column_stochastic K -> inverse_of K L -> keeps_total 2 L.
Proof.
  intros (a & b & ->) (H1 & H2 & H3). split; [exact H1|]. split; [exact H2|]. intros v Hv. specialize (H3 v Hv).
  destruct L as [|r1 [|r2 [|? ?]]]; try discriminate H1. rewrite <- H3 at 2. unfold matvec. simpl. ring.
Qed.

(** The whole mitigation of one sample: whatever the counts, the mitigated counter has the same number of shots, with positive
    counts on distinct outcomes. *)
Theorem C18_mitigation : forall argsort matrix_inv Ks sample n_shots, argsort_ok argsort -> Ks <> [] ->
  (forall K, In K Ks -> column_stochastic K /\ inverse_of K (matrix_inv K)) ->
  length sample = (2 ^ length Ks)%nat -> zsum sample = n_shots -> (0 < n_shots)%Z ->
  (2 ^ Z.of_nat (length Ks) * (2 ^ Z.of_nat (length Ks) + 1) <= 2 * n_shots)%Z ->
  exists counter, mitigation_minimization argsort matrix_inv Ks sample n_shots = Some counter /\
    zsum (map snd counter) = n_shots /\ NoDup (map fst counter) /\ forall k c, In (k, c) counter -> (k < 2 ^ length Ks)%nat /\ (0 < c)%Z.
Proof.
  intros argsort inv Ks sample n Ha HK Hinv Hlen Hs Hn Hm. destruct Ks as [|K Ks]; [contradiction|]. unfold mitigation_minimization, reduce_kron. cbn [map].
  assert (KT : keeps_total (2 ^ length (K :: Ks)) (fold_left np_kron (map inv Ks) (inv K))).
  { assert (G : forall Ks m M, (0 < m)%nat -> keeps_total m M -> (forall K, In K Ks -> keeps_total 2 (inv K)) -> keeps_total (m * 2 ^ length Ks) (fold_left np_kron (map inv Ks) M)).
    { clear. induction Ks as [|K Ks IH]; intros m M Hm HM HK; cbn [length map fold_left].
      - rewrite Nat.pow_0_r, Nat.mul_1_r. exact HM.
      - replace (m * 2 ^ S (length Ks))%nat with (m * 2 * 2 ^ length Ks)%nat by (simpl; lia). apply IH; [lia| |intros K' H'; apply HK; right; exact H'].
        apply kron_keeps; [exact Hm|exact HM|apply HK; left; reflexivity]. }
    cbn [length]. rewrite Nat.pow_succ_r'. apply G; [lia| |].
    - destruct (Hinv K (or_introl eq_refl)) as [C I]. apply (inverse_keeps K); assumption.
    - intros K' H'. destruct (Hinv K' (or_intror H')) as [C I]. apply (inverse_keeps K'); assumption. }
  destruct KT as (T1 & T2 & T3).
  assert (Rn : 0 < IZR n) by (apply IZR_lt; exact Hn).
  set (raw := map (fun c => IZR c / IZR n) sample). assert (Lraw : length raw = (2 ^ length (K :: Ks))%nat) by (unfold raw; rewrite map_length; exact Hlen).
  assert (S1 : rsum raw = 1).
  { assert (Q : rsum raw = IZR (zsum sample) / IZR n) by (unfold raw; clear - Rn; induction sample as [|x l IH]; simpl; [field; lra|]; rewrite IH, plus_IZR; field; lra).
    rewrite Q, Hs. field. lra. }
  set (v := matvec (fold_left np_kron (map inv Ks) (inv K)) raw).
  assert (Lv : length v = (2 ^ length (K :: Ks))%nat) by (unfold v, matvec; rewrite map_length; exact T1).
  rewrite <- Lv. apply C18_mitigated_counter; [exact Ha|unfold v; rewrite T3 by exact Lraw; exact S1|exact Hn|].
  rewrite Lv, Nat2Z.inj_pow. exact Hm.
Qed.
(** The inverse of a symmetric flip channel. *)
Example C18_mitigation_case : exists counter,
  mitigation_minimization isort (fun _ => [[9 / 8; - 1 / 8]; [- 1 / 8; 9 / 8]]) [[[9 / 10; 1 / 10]; [1 / 10; 9 / 10]]; [[9 / 10; 1 / 10]; [1 / 10; 9 / 10]]] [7; 0; 3; 0]%Z 10 = Some counter
  /\ zsum (map snd counter) = 10%Z.
Proof.
  destruct (C18_mitigation isort (fun _ => [[9 / 8; - 1 / 8]; [- 1 / 8; 9 / 8]]) [[[9 / 10; 1 / 10]; [1 / 10; 9 / 10]]; [[9 / 10; 1 / 10]; [1 / 10; 9 / 10]]] [7; 0; 3; 0]%Z 10) as (c & E & S & _).
  - apply C17_argsort_exists.
  - discriminate.
  - assert (Q : column_stochastic [[9 / 10; 1 / 10]; [1 / 10; 9 / 10]] /\ inverse_of [[9 / 10; 1 / 10]; [1 / 10; 9 / 10]] [[9 / 8; - 1 / 8]; [- 1 / 8; 9 / 8]]).
    { split; [exists (9 / 10), (1 / 10); replace (1 - 9 / 10) with (1 / 10) by lra; replace (1 - 1 / 10) with (9 / 10) by lra; reflexivity|]. split; [reflexivity|]. split; [intros r [<- | [<- | []]]; reflexivity|].
      intros [|x [|y [|? ?]]] H; try discriminate H. unfold matvec; simpl. f_equal; [|f_equal]; field. }
    intros K [<- | [<- | []]]; exact Q.
  - reflexivity.
  - reflexivity.
  - lia.
  - simpl. lia.
  - eauto.
Qed.
Print Assumptions C18_mitigation.
