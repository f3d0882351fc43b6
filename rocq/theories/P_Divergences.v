(** C39: divergences between outcome counters. *)
From Coq Require Import String Reals List Bool Lra Lia Permutation.
From Verif Require Import M_PSR M_Divergences.
Import ListNotations.
Open Scope R_scope.

(** * Specification *)
(** Measured outcomes: at least one, each listed once with a positive number of occurrences. *)
Definition measured (c : counter) : Prop := c <> [] /\ NoDup (map fst c) /\ forall k v, In (k, v) c -> 0 < v.
(** Relative frequency of an outcome. *)
Definition freq (c : counter) (k : string) : R := cget c k / rsum (map snd c).

(** * Sums *)
Lemma rsum_app a b : rsum (a ++ b) = rsum a + rsum b.
Proof. induction a as [|x a IH]; simpl; [ring|]. rewrite IH. ring. Qed.
Lemma rsum_perm a b : Permutation a b -> rsum a = rsum b.
Proof. induction 1; simpl; lra. Qed.
Lemma rsum_map_plus {A} (f g : A -> R) l : rsum (map (fun x => f x + g x) l) = rsum (map f l) + rsum (map g l).
Proof. induction l as [|x l IH]; simpl; [ring|]. rewrite IH. ring. Qed.
Lemma rsum_map_scal {A} c (f : A -> R) l : rsum (map (fun x => c * f x) l) = c * rsum (map f l).
Proof. induction l as [|x l IH]; simpl; [ring|]. rewrite IH. ring. Qed.
Lemma rsum_map_le {A} (f g : A -> R) l : (forall x, In x l -> f x <= g x) -> rsum (map f l) <= rsum (map g l).
Proof. induction l as [|x l IH]; intros H; simpl; [lra|]. specialize (H x (or_introl eq_refl)) as H1. specialize (IH (fun y Hy => H y (or_intror Hy))). lra. Qed.
Lemma rsum_pos (l : list R) : (forall x, In x l -> 0 < x) -> l <> [] -> 0 < rsum l.
Proof.
  intros H Hne. assert (G : 0 <= rsum l) by (clear Hne; induction l as [|x l IH]; simpl; [lra|]; pose proof (H x (or_introl eq_refl)); specialize (IH (fun y Hy => H y (or_intror Hy))); lra).
  destruct l as [|x l]; [contradiction|]. simpl. pose proof (H x (or_introl eq_refl)). assert (0 <= rsum l); [|lra]. clear - H.
  induction l as [|y l IH]; simpl; [lra|]. pose proof (H y (or_intror (or_introl eq_refl))). assert (0 <= rsum l); [|lra]. apply IH. intros z Hz. apply H. destruct Hz as [->|Hz]; [left; reflexivity|right; right; exact Hz].
Qed.
Lemma cget_in c k v : NoDup (map fst c) -> In (k, v) c -> cget c k = v.
Proof.
  unfold cget. induction c as [|[j b] c IH]; intros W H; [destruct H|]. simpl. inversion W as [|? ? N W']; subst. destruct H as [H|H].
  - injection H as <- <-. rewrite String.eqb_refl. reflexivity.
  - destruct (String.eqb_spec j k) as [->|]; [|apply IH; assumption]. exfalso. apply N. apply (in_map fst) in H. exact H.
Qed.
Lemma cget_out c k : ~ In k (map fst c) -> cget c k = 0.
Proof.
  unfold cget. induction c as [|[j b] c IH]; intros H; simpl; [reflexivity|]. destruct (String.eqb_spec j k) as [->|]; [exfalso; apply H; left; reflexivity|]. apply IH. intros H'. apply H. right. exact H'.
Qed.
Lemma cmem_iff c k : cmem c k = true <-> In k (map fst c).
Proof.
  unfold cmem. rewrite existsb_exists. split.
  - intros ([j b] & H & E). apply String.eqb_eq in E. simpl in E. subst. apply (in_map fst) in H. exact H.
  - intros H. apply in_map_iff in H as ([j b] & <- & H). exists (j, b). split; [exact H|apply String.eqb_refl].
Qed.
(** Sum of a function of outcomes over the entries of a counter, and over a larger duplicate-free list of outcomes. *)
Lemma sum_entries (c : counter) (h : R -> R) : NoDup (map fst c) -> rsum (map (fun e => h (snd e)) c) = rsum (map (fun k => h (cget c k)) (map fst c)).
Proof. intros W. rewrite map_map. f_equal. apply map_ext_in. intros [k v] H. simpl. rewrite (cget_in c k v W H). reflexivity. Qed.
Lemma sum_extend (f : string -> R) : forall small large, NoDup small -> NoDup large -> incl small large -> (forall k, In k large -> ~ In k small -> f k = 0) ->
  rsum (map f large) = rsum (map f small).
Proof.
  intros small. induction small as [|k small IH]; intros large N1 N2 HI HZ.
  - simpl. clear N1 N2 HI. induction large as [|x l IHl]; simpl; [reflexivity|]. rewrite (HZ x (or_introl eq_refl) (fun H => H)), IHl; [ring|]. intros; apply HZ; [right|]; assumption.
  - inversion N1 as [|? ? Nk N1']; subst. assert (Hk : In k large) by (apply HI; left; reflexivity). apply in_split in Hk as (l1 & l2 & ->).
    rewrite (rsum_perm (map f (l1 ++ k :: l2)) (map f (k :: l1 ++ l2))) by (apply Permutation_map, Permutation_sym, Permutation_middle). simpl. f_equal.
    assert (N3 := NoDup_remove _ _ _ N2). destruct N3 as [N3 N4]. apply IH; [exact N1'|exact N3| |].
    + intros x Hx. assert (Hx' : In x (l1 ++ k :: l2)) by (apply HI; right; exact Hx). apply in_app_or in Hx' as [H|[H|H]]; apply in_or_app; auto. subst. contradiction.
    + intros x Hx Hnx. apply HZ; [apply in_app_or in Hx as [H|H]; apply in_or_app; simpl; auto|]. intros [->|H]; [contradiction|contradiction].
Qed.

(** * The pointwise divergence *)
Definition xlnx (x : R) : R := x * ln x.
Definition jsk (p q : R) : R := - xlnx ((p + q) / 2) + (xlnx p + xlnx q) / 2.
Lemma ln_le_sub t : 0 < t -> ln t <= t - 1.
Proof. intros H. pose proof (exp_ineq1_le (ln t)) as E. rewrite exp_ln in E by exact H. lra. Qed.
Lemma ln_lt_sub t : 0 < t -> t <> 1 -> ln t < t - 1.
Proof.
  intros H N. destruct (Req_dec (ln t) 0) as [Z|Z].
  - exfalso. apply N. rewrite <- (exp_ln t H), Z. apply exp_0.
  - pose proof (exp_ineq1 (ln t) Z) as E. rewrite exp_ln in E by exact H. lra.
Qed.
Lemma half_lower p m : 0 < p -> 0 < m -> p - m <= xlnx p - p * ln m.
Proof.
  intros Hp Hm. unfold xlnx. pose proof (ln_le_sub (m / p)) as L. assert (0 < m / p) by (apply Rdiv_lt_0_compat; assumption). specialize (L H). unfold Rdiv in L at 1. rewrite ln_mult, ln_Rinv in L by (try apply Rinv_0_lt_compat; assumption).
  apply Rmult_le_compat_l with (r := p) in L; [|lra]. replace (p * (m / p - 1)) with (m - p) in L by (field; lra). lra.
Qed.
Lemma half_lower_strict p m : 0 < p -> 0 < m -> p <> m -> p - m < xlnx p - p * ln m.
Proof.
  intros Hp Hm N. unfold xlnx. assert (P : 0 < m / p) by (apply Rdiv_lt_0_compat; assumption). assert (N1 : m / p <> 1).
  { intros E. apply N. replace m with (m / p * p) by (field; lra). rewrite E. ring. }
  pose proof (ln_lt_sub (m / p) P N1) as L. unfold Rdiv in L at 1. rewrite ln_mult, ln_Rinv in L by (try apply Rinv_0_lt_compat; assumption).
  apply Rmult_lt_compat_l with (r := p) in L; [|lra]. replace (p * (m / p - 1)) with (m - p) in L by (field; lra). lra.
Qed.
Lemma half_upper p q : 0 < p -> 0 <= q -> xlnx p - p * ln ((p + q) / 2) <= p * ln 2.
Proof.
  intros Hp Hq. unfold xlnx. assert (L : ln p <= ln 2 + ln ((p + q) / 2)).
  { rewrite <- ln_mult by lra. destruct (Req_dec q 0) as [->|]; [right; f_equal; field|]. left. apply ln_increasing; lra. }
  nra.
Qed.
Lemma xlnx0 : xlnx 0 = 0.
Proof. unfold xlnx. ring. Qed.
Lemma jsk_sym p q : jsk p q = jsk q p.
Proof. unfold jsk. rewrite (Rplus_comm q p). lra. Qed.
Lemma jsk_split p q : jsk p q = ((xlnx p - p * ln ((p + q) / 2)) + (xlnx q - q * ln ((p + q) / 2))) / 2.
Proof. unfold jsk. unfold xlnx at 1. field. Qed.
Lemma half_any p q : 0 <= p -> 0 <= q -> 0 < p + q -> p - (p + q) / 2 <= xlnx p - p * ln ((p + q) / 2) <= p * ln 2.
Proof.
  intros Hp Hq Hs. destruct (Req_dec p 0) as [->|N]; [rewrite xlnx0; lra|]. split; [apply half_lower; lra|apply half_upper; lra].
Qed.
Lemma jsk_bounds p q : 0 <= p -> 0 <= q -> 0 < p + q -> 0 <= jsk p q <= (p + q) / 2 * ln 2.
Proof.
  intros Hp Hq Hs. rewrite jsk_split. pose proof (half_any p q Hp Hq Hs) as [A1 A2]. pose proof (half_any q p Hq Hp ltac:(lra)) as [B1 B2]. rewrite (Rplus_comm q p) in B1, B2. split; lra.
Qed.
Lemma jsk_same p : jsk p p = 0.
Proof. unfold jsk. replace ((p + p) / 2) with p by field. lra. Qed.
Lemma jsk_zero p q : 0 <= p -> 0 <= q -> 0 < p + q -> jsk p q = 0 -> p = q.
Proof.
  intros Hp Hq Hs H. destruct (Req_dec p q) as [E|N]; [exact E|]. exfalso. rewrite jsk_split in H.
  pose proof (half_any p q Hp Hq Hs) as [A1 _]. pose proof (half_any q p Hq Hp ltac:(lra)) as [B1 _]. rewrite (Rplus_comm q p) in B1.
  destruct (Req_dec p 0) as [->|Np].
  - pose proof (half_lower_strict q ((0 + q) / 2) ltac:(lra) ltac:(lra) ltac:(lra)). lra.
  - pose proof (half_lower_strict p ((p + q) / 2) ltac:(lra) ltac:(lra) ltac:(lra)). lra.
Qed.

(** * The divergence as a sum over outcomes *)
Definition union (p q : counter) : list string := map fst p ++ map fst (filter (fun e => negb (cmem p (fst e))) q).
Lemma nodup_app {A} (a b : list A) : NoDup a -> NoDup b -> (forall x, In x a -> ~ In x b) -> NoDup (a ++ b).
Proof.
  induction a as [|x a IH]; intros Ha Hb D; simpl; [exact Hb|]. inversion Ha; subst. constructor; [|apply IH; [assumption|assumption|intros y Hy; apply D; right; exact Hy]].
  intros H. apply in_app_or in H as [H|H]; [contradiction|]. apply (D x (or_introl eq_refl) H).
Qed.
Lemma nodup_filter_fst (f : string * R -> bool) c : NoDup (map fst c) -> NoDup (map fst (filter f c)).
Proof.
  induction c as [|e c IH]; intros W; simpl; [constructor|]. inversion W as [|? ? N W']; subst. destruct (f e); simpl; [|apply IH, W']. constructor; [|apply IH, W'].
  intros H. apply N. apply in_map_iff in H as (x & E & H). apply filter_In in H as [H _]. apply in_map_iff. eauto.
Qed.
Lemma union_nodup p q : NoDup (map fst p) -> NoDup (map fst q) -> NoDup (union p q).
Proof.
  intros H1 H2. apply nodup_app; [exact H1|apply nodup_filter_fst, H2|]. intros k Hk H. apply in_map_iff in H as (e & <- & H). apply filter_In in H as [_ H]. rewrite (proj2 (cmem_iff p (fst e)) Hk) in H. discriminate H.
Qed.
Lemma union_in p q k : In k (union p q) <-> In k (map fst p) \/ In k (map fst q).
Proof.
  unfold union. rewrite in_app_iff. split.
  - intros [H|H]; [auto|]. apply in_map_iff in H as (e & <- & H). apply filter_In in H as [H _]. right. apply in_map, H.
  - intros [H|H]; [auto|]. destruct (cmem p k) eqn:E; [left; apply cmem_iff, E|]. right. apply in_map_iff in H as (e & <- & H). apply in_map_iff. exists e. split; [reflexivity|]. apply filter_In. rewrite E. auto.
Qed.
Lemma filter_all {A} (f : A -> bool) l : (forall x, In x l -> f x = true) -> filter f l = l.
Proof. induction l as [|x l IH]; intros H; simpl; [reflexivity|]. rewrite (H x (or_introl eq_refl)), IH; [reflexivity|]. intros; apply H; right; assumption. Qed.
Lemma posb_true x : 0 < x -> posb x = true.
Proof. unfold posb. destruct (Rlt_dec 0 x); [reflexivity|contradiction]. Qed.
Lemma cget_nonneg c k : measured c -> 0 <= cget c k.
Proof.
  intros (_ & W & P). destruct (in_dec string_dec k (map fst c)) as [H|H].
  - apply in_map_iff in H as ([j v] & E & H). simpl in E. subst. rewrite (cget_in c k v W H). left. apply (P k v H).
  - rewrite cget_out by exact H. lra.
Qed.
Lemma cadd_eq p q : measured p -> measured q -> cadd p q = map (fun k => (k, cget p k + cget q k)) (union p q).
Proof.
  intros Mp Mq. destruct Mp as (Ep & Wp & Pp). destruct Mq as (Eq & Wq & Pq). unfold cadd, union. rewrite map_app, !map_map. f_equal.
  - rewrite filter_all.
    + apply map_ext_in. intros [k v] H. simpl. rewrite (cget_in p k v Wp H). reflexivity.
    + intros e He. apply in_map_iff in He as ([k v] & <- & H). simpl. apply posb_true. pose proof (Pp k v H). pose proof (cget_nonneg q k (conj Eq (conj Wq Pq))). lra.
  - rewrite filter_all.
    + rewrite <- (map_id (filter (fun e => negb (cmem p (fst e))) q)) at 1. apply map_ext_in. intros [k v] H. apply filter_In in H as [H1 H2]. simpl in *. rewrite (cget_in q k v Wq H1). rewrite (cget_out p k); [f_equal; ring|].
      intros H. rewrite (proj2 (cmem_iff p k) H) in H2. discriminate H2.
    + intros [k v] H. apply filter_In in H as [H _]. apply posb_true, (Pq k v H).
Qed.
Lemma entropy_pos c : (forall e, In e c -> 0 < snd e) -> shannon_entropy c = Some (- rsum (map (fun e => xlnx (snd e)) c)).
Proof.
  intros H. unfold shannon_entropy. replace (forallb (fun e => posb (snd e)) c) with true; [reflexivity|]. symmetry. apply forallb_forall. intros e He. apply posb_true, H, He.
Qed.
Lemma normal_measured c : measured c -> measured (normalise c) /\ rsum (map snd (normalise c)) = 1 /\ forall k, cget (normalise c) k = freq c k.
Proof.
  intros (E & W & P). assert (S : 0 < rsum (map snd c)).
  { apply rsum_pos; [|destruct c; [contradiction|discriminate]]. intros x Hx. apply in_map_iff in Hx as ([k v] & <- & H). apply (P k v H). }
  split; [|split].
  - split; [destruct c; [contradiction|discriminate]|]. split; [unfold normalise; rewrite map_map; exact W|].
    intros k v H. unfold normalise in H. apply in_map_iff in H as ([j w] & Ej & H). injection Ej as <- <-. simpl. apply Rdiv_lt_0_compat; [apply (P j w H)|exact S].
  - unfold normalise. rewrite map_map. simpl. rewrite (map_ext _ (fun e : string * R => / rsum (map snd c) * snd e)) by (intros e; unfold Rdiv; ring). rewrite rsum_map_scal. field. lra.
  - intros k. unfold freq, normalise, cget. set (s := rsum (map snd c)). clearbody s. clear. induction c as [|[j v] c IH]; simpl; [unfold Rdiv; ring|]. destruct (String.eqb j k); [reflexivity|exact IH].
Qed.

Lemma js_form p q : measured p -> measured q ->
  js_divergence p q = Some (rsum (map (fun k => jsk (freq p k) (freq q k)) (union (normalise p) (normalise q)))) /\
  rsum (map (freq p) (union (normalise p) (normalise q))) = 1 /\ rsum (map (freq q) (union (normalise p) (normalise q))) = 1.
Proof.
  intros Mp Mq. destruct (normal_measured p Mp) as (Np & Sp & Fp). destruct (normal_measured q Mq) as (Nq & Sq & Fq).
  set (P := normalise p) in *. set (Q := normalise q) in *. assert (Np' := Np). assert (Nq' := Nq). destruct Np' as (_ & WP & PP). destruct Nq' as (_ & WQ & PQ).
  assert (NU := union_nodup P Q WP WQ).
  assert (EP : forall h : R -> R, h 0 = 0 -> rsum (map (fun k => h (cget P k)) (union P Q)) = rsum (map (fun e => h (snd e)) P)).
  { intros h Hh. rewrite (sum_entries P h WP). apply sum_extend; [exact WP|exact NU|intros k Hk; apply union_in; auto|]. intros k _ Hk. rewrite cget_out by exact Hk. exact Hh. }
  assert (EQ : forall h : R -> R, h 0 = 0 -> rsum (map (fun k => h (cget Q k)) (union P Q)) = rsum (map (fun e => h (snd e)) Q)).
  { intros h Hh. rewrite (sum_entries Q h WQ). apply sum_extend; [exact WQ|exact NU|intros k Hk; apply union_in; auto|]. intros k _ Hk. rewrite cget_out by exact Hk. exact Hh. }
  assert (UP : forall k, In k (union P Q) -> 0 < cget P k + cget Q k).
  { intros k Hk. pose proof (cget_nonneg P k Np). pose proof (cget_nonneg Q k Nq). apply union_in in Hk as [Hk|Hk]; apply in_map_iff in Hk as ([j v] & E & H1); simpl in E; subst.
    - rewrite (cget_in P k v WP H1) in *. pose proof (PP k v H1). lra.
    - rewrite (cget_in Q k v WQ H1) in *. pose proof (PQ k v H1). lra. }
  split; [|split].
  - unfold js_divergence. fold P. fold Q. rewrite (cadd_eq P Q Np Nq), map_map. simpl. rewrite !entropy_pos.
    + f_equal. rewrite map_map. simpl. rewrite <- (EP xlnx xlnx0), <- (EQ xlnx xlnx0).
      rewrite (map_ext (fun k => jsk (freq p k) (freq q k)) (fun k => -1 * xlnx ((cget P k + cget Q k) / 2) + (1 / 2 * xlnx (cget P k) + 1 / 2 * xlnx (cget Q k)))) by (intros k; unfold jsk; rewrite Fp, Fq; field).
      rewrite !rsum_map_plus, !rsum_map_scal. field.
    + intros [k v] H. apply (PQ k v H).
    + intros [k v] H. apply (PP k v H).
    + intros e He. apply in_map_iff in He as (k & <- & Hk). simpl. specialize (UP k Hk). lra.
  - rewrite <- Sp. transitivity (rsum (map (fun e : string * R => snd e) P)); [|reflexivity]. rewrite <- (EP (fun x => x) eq_refl). f_equal. apply map_ext. intros k. symmetry. apply Fp.
  - rewrite <- Sq. transitivity (rsum (map (fun e : string * R => snd e) Q)); [|reflexivity]. rewrite <- (EQ (fun x => x) eq_refl). f_equal. apply map_ext. intros k. symmetry. apply Fq.
Qed.
Lemma freq_nonneg c k : measured c -> 0 <= freq c k.
Proof. intros M. destruct (normal_measured c M) as (N & _ & F). rewrite <- F. apply cget_nonneg, N. Qed.
Lemma union_pos p q k : measured p -> measured q -> In k (union (normalise p) (normalise q)) -> 0 < freq p k + freq q k.
Proof.
  intros Mp Mq Hk. destruct (normal_measured p Mp) as ((Ep & WP & PP) & _ & Fp). destruct (normal_measured q Mq) as ((Eq & WQ & PQ) & _ & Fq).
  pose proof (freq_nonneg p k Mp). pose proof (freq_nonneg q k Mq). apply union_in in Hk as [Hk|Hk]; apply in_map_iff in Hk as ([j v] & E & H1); simpl in E; subst.
  - rewrite <- Fp, (cget_in _ k v WP H1) in *. pose proof (PP k v H1). lra.
  - rewrite <- Fq, (cget_in _ k v WQ H1) in *. pose proof (PQ k v H1). lra.
Qed.

(** * C39 *)
(** Between any two measured counters the divergence is defined, symmetric, between 0 and ln 2, and zero exactly when all relative
    frequencies agree. *)
Theorem C39_js : forall p q, measured p -> measured q -> exists d, js_divergence p q = Some d /\ js_divergence q p = Some d /\
  0 <= d <= ln 2 /\ (d = 0 <-> forall k, freq p k = freq q k).
Proof.
  intros p q Mp Mq. destruct (js_form p q Mp Mq) as (E & S1 & S2). destruct (js_form q p Mq Mp) as (E' & _ & _).
  set (U := union (normalise p) (normalise q)) in *. set (V := union (normalise q) (normalise p)) in *.
  destruct (normal_measured p Mp) as ((_ & WP & _) & _ & Fp). destruct (normal_measured q Mq) as ((_ & WQ & _) & _ & Fq).
  assert (HP : Permutation U V) by (apply NoDup_Permutation; [apply union_nodup; assumption|apply union_nodup; assumption|intros k; unfold U, V; rewrite !union_in; tauto]).
  assert (B : forall k, In k U -> 0 <= jsk (freq p k) (freq q k) <= (freq p k + freq q k) / 2 * ln 2) by (intros k Hk; apply jsk_bounds; [apply freq_nonneg, Mp|apply freq_nonneg, Mq|apply union_pos; assumption]).
  eexists. split; [exact E|]. split.
  - rewrite E'. f_equal. rewrite (map_ext _ (fun k => jsk (freq p k) (freq q k))) by (intros; apply jsk_sym). apply rsum_perm, Permutation_map, Permutation_sym, HP.
  - split; [split|].
    + rewrite <- (rsum_map_scal 0 (fun _ : string => 0) U) at 1 || idtac. assert (Z : rsum (map (fun _ : string => 0) U) = 0) by (clear; induction U; simpl; [reflexivity|rewrite IHU; ring]). rewrite <- Z. apply rsum_map_le. intros k Hk. apply B, Hk.
    + apply Rle_trans with (rsum (map (fun k => (freq p k + freq q k) / 2 * ln 2) U)); [apply rsum_map_le; intros k Hk; apply B, Hk|].
      rewrite (map_ext _ (fun k => ln 2 / 2 * freq p k + ln 2 / 2 * freq q k)) by (intros; field). rewrite rsum_map_plus, !rsum_map_scal, S1, S2. right. field.
    + split.
      * intros Z k. assert (G : forall k, In k U -> jsk (freq p k) (freq q k) = 0).
        { clear - B Z. induction U as [|x l IH]; [intros k []|]. simpl in Z. assert (Hl : 0 <= rsum (map (fun k => jsk (freq p k) (freq q k)) l)).
          { assert (B' : forall k, In k l -> 0 <= jsk (freq p k) (freq q k)) by (intros k Hk; apply B; right; exact Hk). clear - B'. induction l as [|y l IH]; simpl; [lra|]. pose proof (B' y (or_introl eq_refl)). specialize (IH (fun k Hk => B' k (or_intror Hk))). lra. }
          pose proof (B x (or_introl eq_refl)) as [B1 _]. intros k [<-|Hk]; [lra|]. apply IH; [intros j Hj; apply B; right; exact Hj|lra|exact Hk]. }
        destruct (in_dec string_dec k U) as [Hk|Hk].
        -- apply jsk_zero; [apply freq_nonneg, Mp|apply freq_nonneg, Mq|apply union_pos; assumption|apply G, Hk].
        -- rewrite <- Fp, <- Fq. unfold U in Hk. rewrite union_in in Hk. rewrite !cget_out by tauto. reflexivity.
      * intros H. rewrite (map_ext _ (fun _ => 0)) by (intros k; rewrite H; apply jsk_same). clear. induction U; simpl; [reflexivity|rewrite IHU; ring].
Qed.
(** Disjoint counters reach the bound ln 2. *)
Theorem C39_js_disjoint : forall p q, measured p -> measured q -> (forall k, In k (map fst p) -> ~ In k (map fst q)) -> js_divergence p q = Some (ln 2).
Proof.
  intros p q Mp Mq D. destruct (js_form p q Mp Mq) as (E & S1 & S2). rewrite E. f_equal. set (U := union _ _) in *.
  transitivity (rsum (map (fun k => ln 2 / 2 * freq p k + ln 2 / 2 * freq q k) U)); [|rewrite rsum_map_plus, !rsum_map_scal, S1, S2; field].
  f_equal. apply map_ext_in. intros k Hk. pose proof (union_pos p q k Mp Mq Hk) as HP.
  assert (Z : freq p k = 0 \/ freq q k = 0).
  { destruct (in_dec string_dec k (map fst p)) as [H|H]; [right; unfold freq; rewrite (cget_out q k (D k H)); unfold Rdiv; ring|left; unfold freq; rewrite (cget_out p k H); unfold Rdiv; ring]. }
  assert (G : forall x, 0 < x -> jsk 0 x = ln 2 / 2 * x).
  { intros x Hx. unfold jsk. rewrite xlnx0. unfold xlnx. replace ((0 + x) / 2) with (x * / 2) by field. rewrite ln_mult, ln_Rinv by lra. field. }
  destruct Z as [Z|Z]; rewrite Z in *.
  - rewrite G by lra. ring.
  - rewrite jsk_sym, G by lra. ring.
Qed.

(** * norm_difference *)
(** For counters listing the same outcomes in the same order: the Euclidean distance of the frequency vectors. *)
Definition aligned (p q : counter) : Prop := map fst p = map fst q.
Definition dist (p q : counter) : R := sqrt (rsum (map (fun k => (freq p k - freq q k) ^ 2) (map fst p))).
Lemma norm_form p q : NoDup (map fst p) -> aligned p q -> norm_difference p q = Some (dist p q).
Proof.
  intros W A. unfold norm_difference, dist. assert (L : length p = length q) by (unfold aligned in A; rewrite <- (map_length fst p), A, map_length; reflexivity).
  rewrite !map_length, L, Nat.eqb_refl. do 3 f_equal. set (sp := rsum (map snd p)). set (sq := rsum (map snd q)).
  assert (G : forall p' q' : counter, map fst p' = map fst q' -> (forall k v, In (k, v) p' -> cget p k = v) -> (forall k v, In (k, v) q' -> cget q k = v) ->
    map (fun ab => (fst ab / sp - snd ab / sq) ^ 2) (combine (map snd p') (map snd q')) = map (fun k => (freq p k - freq q k) ^ 2) (map fst p')).
  { induction p' as [|[k v] p' IH]; intros [|[j w] q'] E H1 H2; try discriminate; [reflexivity|]. simpl in E. injection E as <- E. cbn [map combine fst snd]. f_equal; [|apply IH; [exact E|intros a b Hab; apply H1; right; exact Hab|intros a b Hab; apply H2; right; exact Hab]].
    unfold freq. rewrite (H1 k v (or_introl eq_refl)), (H2 k w (or_introl eq_refl)). reflexivity. }
  apply G; [exact A|intros k v H; apply cget_in; assumption|intros k v H; apply cget_in; [rewrite <- A; exact W|exact H]].
Qed.
Lemma sq_sum_pos {A} (f : A -> R) l : 0 <= rsum (map (fun k => f k ^ 2) l).
Proof. induction l as [|y l IH]; [simpl; lra|]. cbn [map rsum]. pose proof (pow2_ge_0 (f y)). lra. Qed.
Lemma sq_sum_zero (f : string -> R) l : rsum (map (fun k => f k ^ 2) l) = 0 -> forall k, In k l -> f k = 0.
Proof.
  induction l as [|x l IH]; intros H k Hk; [destruct Hk|]. cbn [map rsum] in H. pose proof (sq_sum_pos f l) as N.
  pose proof (pow2_ge_0 (f x)) as P. destruct Hk as [<-|Hk]; [|apply IH; [lra|exact Hk]]. assert (Z : f x * f x = 0) by (replace (f x * f x) with (f x ^ 2) by ring; lra). apply Rmult_integral in Z. tauto.
Qed.
(** Cauchy-Schwarz and Minkowski for finite sums. *)
Lemma cauchy {A} (f g : A -> R) l : (rsum (map (fun k => f k * g k) l)) ^ 2 <= rsum (map (fun k => f k ^ 2) l) * rsum (map (fun k => g k ^ 2) l).
Proof.
  induction l as [|x l IH]; [simpl; lra|]. cbn [map rsum]. set (s := rsum (map (fun k => f k * g k) l)) in *. set (a := rsum (map (fun k => f k ^ 2) l)) in *. set (b := rsum (map (fun k => g k ^ 2) l)) in *.
  assert (Ha : 0 <= a) by apply sq_sum_pos. assert (Hb : 0 <= b) by apply sq_sum_pos.
  assert (K : 2 * (f x * g x) * s <= f x ^ 2 * b + g x ^ 2 * a).
  { destruct (Req_dec b 0) as [Zb|Nb].
    - assert (s = 0) by (rewrite Zb, Rmult_0_r in IH; nra). rewrite H, Zb. pose proof (Rle_0_sqr (g x)) as Q. unfold Rsqr in Q. nra.
    - assert (Pb : 0 < b) by lra. apply Rmult_le_reg_r with b; [exact Pb|].
      assert (0 <= (f x * b - g x * s) ^ 2) by apply pow2_ge_0. assert (g x ^ 2 * (s ^ 2) <= g x ^ 2 * (a * b)) by (apply Rmult_le_compat_l; [apply pow2_ge_0|exact IH]). nra. }
  nra.
Qed.
Lemma minkowski {A} (f g : A -> R) l : sqrt (rsum (map (fun k => (f k + g k) ^ 2) l)) <= sqrt (rsum (map (fun k => f k ^ 2) l)) + sqrt (rsum (map (fun k => g k ^ 2) l)).
Proof.
  assert (E : rsum (map (fun k => (f k + g k) ^ 2) l) = rsum (map (fun k => f k ^ 2) l) + 2 * rsum (map (fun k => f k * g k) l) + rsum (map (fun k => g k ^ 2) l)).
  { rewrite (map_ext _ (fun k => (f k ^ 2 + 2 * (f k * g k)) + g k ^ 2)) by (intros; ring). rewrite !rsum_map_plus, rsum_map_scal. reflexivity. }
  rewrite E. pose proof (cauchy f g l) as C. pose proof (sq_sum_pos f l) as Ha. pose proof (sq_sum_pos g l) as Hb. set (a := rsum (map (fun k => f k ^ 2) l)) in *. set (b := rsum (map (fun k => g k ^ 2) l)) in *. set (s := rsum (map (fun k => f k * g k) l)) in *.
  assert (Hs : s <= sqrt a * sqrt b).
  { rewrite <- sqrt_mult_alt by exact Ha. apply Rle_trans with (Rabs s); [apply Rle_abs|]. rewrite <- sqrt_Rsqr_abs. apply sqrt_le_1_alt. unfold Rsqr. replace (s * s) with (s ^ 2) by ring. exact C. }
  apply Rsqr_incr_0_var; [|pose proof (sqrt_pos a); pose proof (sqrt_pos b); lra]. rewrite Rsqr_sqrt.
  - unfold Rsqr. replace ((sqrt a + sqrt b) * (sqrt a + sqrt b)) with (sqrt a * sqrt a + 2 * (sqrt a * sqrt b) + sqrt b * sqrt b) by ring. rewrite !sqrt_sqrt by assumption. lra.
  - rewrite <- E. apply sq_sum_pos.
Qed.
(** A metric on counters listing the same outcomes in the same order. *)
Theorem C39_norm_partial : forall p q r, measured p -> measured q -> measured r -> aligned p q -> aligned q r ->
  exists dpq dqr dpr, norm_difference p q = Some dpq /\ norm_difference q p = Some dpq /\ norm_difference q r = Some dqr /\ norm_difference p r = Some dpr /\
    0 <= dpq /\ (dpq = 0 <-> forall k, freq p k = freq q k) /\ dpr <= dpq + dqr.
Proof.
  intros p q r (Ep & Wp & Pp) (Eq & Wq & Pq) (Er & Wr & Pr) A B. assert (C : aligned p r) by (unfold aligned in *; congruence).
  exists (dist p q), (dist q r), (dist p r). split; [apply norm_form; assumption|]. split; [|split; [apply norm_form; assumption|split; [apply norm_form; assumption|]]].
  - rewrite norm_form; [|exact Wq|symmetry; exact A]. f_equal. unfold dist. rewrite <- A. do 2 f_equal. apply map_ext. intros; ring.
  - split; [apply sqrt_pos|]. split.
    + unfold dist. split.
      * intros H k. apply sqrt_eq_0 in H; [|apply sq_sum_pos]. destruct (in_dec string_dec k (map fst p)) as [Hk|Hk].
        -- pose proof (sq_sum_zero (fun k => freq p k - freq q k) (map fst p) H k Hk) as Z. simpl in Z. lra.
        -- unfold freq. rewrite (cget_out p k Hk), (cget_out q k); [unfold Rdiv; ring|]. rewrite <- A. exact Hk.
      * intros H. rewrite (map_ext _ (fun _ => 0)) by (intros k; rewrite H; ring). assert (Z : forall l : list string, rsum (map (fun _ => 0) l) = 0) by (induction l; simpl; [reflexivity|rewrite IHl; ring]). rewrite Z. apply sqrt_0.
    + unfold dist. rewrite <- A. rewrite (map_ext (fun k => (freq p k - freq r k) ^ 2) (fun k => ((freq p k - freq q k) + (freq q k - freq r k)) ^ 2)) by (intros; ring).
      apply (minkowski (fun k => freq p k - freq q k) (fun k => freq q k - freq r k)).
Qed.
(** In general the outcomes are ignored: two counters with opposite frequencies are at distance zero. *)
Theorem C39_norm_refuted : exists p q, measured p /\ measured q /\ norm_difference p q = Some 0 /\ ~ (forall k, freq p k = freq q k).
Proof.
  exists [("0"%string, 3); ("1"%string, 1)], [("1"%string, 3); ("0"%string, 1)].
  assert (M : forall a b, a <> b -> measured [(a, 3); (b, 1)]).
  { intros a b Hab. split; [discriminate|]. split; [repeat constructor; simpl; intuition congruence|]. intros k v [H|[H|[]]]; injection H as <- <-; lra. }
  split; [apply M; discriminate|]. split; [apply M; discriminate|]. split.
  - unfold norm_difference. simpl. f_equal. transitivity (sqrt 0); [|apply sqrt_0]. f_equal. field.
  - intros H. specialize (H "0"%string). unfold freq, cget in H. simpl in H. lra.
Qed.
Example C39_case : measured [("00"%string, 3); ("11"%string, 1)] /\ js_divergence [("00"%string, 3); ("11"%string, 1)] [("01"%string, 3); ("10"%string, 5)] = Some (ln 2).
Proof.
  assert (M : forall a b x y, a <> b -> 0 < x -> 0 < y -> measured [(a, x); (b, y)]).
  { intros a b x y Hab Hx Hy. split; [discriminate|]. split; [repeat constructor; simpl; intuition congruence|]. intros k v [H|[H|[]]]; injection H as <- <-; lra. }
  split; [apply M; [discriminate|lra|lra]|]. apply C39_js_disjoint; [apply M; [discriminate|lra|lra]|apply M; [discriminate|lra|lra]|].
  simpl. intros k [<- | [<- | []]] [H|[H|[]]]; discriminate H.
Qed.
Print Assumptions C39_js.
Print Assumptions C39_js_disjoint.
Print Assumptions C39_norm_partial.
Print Assumptions C39_norm_refuted.
