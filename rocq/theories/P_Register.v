(** C38: register geometry. *)
From Coq Require Import Reals List Arith Bool Lra Lia.
From Verif Require Import M_Register.
Import ListNotations.
Open Scope R_scope.

(** A graph lists every node once. *)
Definition wf (r : register) : Prop := NoDup (support r).

Lemma coord_in r i a : wf r -> In (i, a) r -> coord r i = Some a.
Proof.
  unfold coord, wf. induction r as [|[j b] r IH]; intros W H; [destruct H|]. simpl. inversion W as [|? ? N W']; subst. destruct H as [H|H].
  - injection H as <- <-. rewrite Nat.eqb_refl. reflexivity.
  - destruct (Nat.eqb_spec j i) as [->|]; [|apply IH; assumption]. exfalso. apply N. apply (in_map fst) in H. exact H.
Qed.
Lemma coord_some r i a : coord r i = Some a -> In (i, a) r.
Proof. unfold coord. destruct (find _ r) as [[j b]|] eqn:E; intros H; [|discriminate]. injection H as <-. apply find_some in E as [E1 E2]. simpl in E2. apply Nat.eqb_eq in E2. subst. exact E1. Qed.
Lemma coord_def r i : In i (support r) -> exists a, coord r i = Some a.
Proof.
  unfold coord, support. induction r as [|[j b] r IH]; intros H; [destruct H|]. simpl in *. destruct (Nat.eqb_spec j i); [eauto|]. destruct H as [|H]; [contradiction|apply IH, H].
Qed.
Lemma dist_pos a b : 0 <= dist a b.
Proof. apply sqrt_pos. Qed.
Lemma dist_scale s a b : dist (fst a * s, snd a * s) (fst b * s, snd b * s) = Rabs s * dist a b.
Proof.
  unfold dist. simpl fst; simpl snd. rewrite <- (sqrt_Rsqr_abs s), <- sqrt_mult_alt by apply Rle_0_sqr. f_equal. unfold Rsqr. ring.
Qed.

(** The distance is the Euclidean distance of the standard library. *)
Theorem C38_distance : forall a b, dist a b = dist_euc (fst a) (snd a) (fst b) (snd b).
Proof. intros a b. unfold dist, dist_euc, Rsqr. f_equal. ring. Qed.

(** * Pairs *)
Lemma prod_nodup (A B : list nat) : NoDup A -> NoDup B -> NoDup (list_prod A B).
Proof.
  intros H1 H2. induction A as [|x A IH]; simpl; [constructor|]. inversion H1; subst.
  assert (G : forall L, NoDup L -> (forall b, ~ In (x, b) L) -> NoDup (map (fun y => (x, y)) B ++ L)).
  { clear - H2. intros L HL Hx. induction B as [|b B IH]; simpl; [exact HL|]. inversion H2; subst. constructor; [|apply IH; assumption].
    intros H. apply in_app_or in H as [H|H]; [apply in_map_iff in H as (y & E & Hy); injection E as ->; contradiction|]. apply (Hx b H). }
  apply G; [apply IH; assumption|]. intros b H. apply in_prod_iff in H. tauto.
Qed.
(** Every unordered pair of distinct nodes appears exactly once. *)
Theorem C38_pairs : forall r, wf r -> NoDup (all_node_pairs r) /\
  (forall a b, In (a, b) (all_node_pairs r) <-> In a (support r) /\ In b (support r) /\ (a < b)%nat).
Proof.
  intros r W. split.
  - unfold all_node_pairs. apply NoDup_filter, prod_nodup; exact W.
  - intros a b. unfold all_node_pairs. rewrite filter_In. simpl. rewrite in_prod_iff, Nat.ltb_lt. tauto.
Qed.

(** * Minimum distance *)
Lemma rmin_le x l : forall y, In y (x :: l) -> rmin x l <= y.
Proof.
  revert x. induction l as [|z l IH]; intros x y H; simpl in *.
  - destruct H as [->|[]]. apply Rle_refl.
  - destruct H as [->|H]; [apply Rmin_l|]. eapply Rle_trans; [apply Rmin_r|]. apply IH, H.
Qed.
Lemma rmin_in x l : In (rmin x l) (x :: l).
Proof.
  revert x. induction l as [|z l IH]; intros x; simpl; [auto|]. unfold Rmin. destruct (Rle_dec x (rmin z l)); [auto|]. right. apply IH.
Qed.
(** min_distance is a lower bound of the distances of all pairs of distinct qubits, attained by one of them (with at least two
    qubits), and zero for registers with fewer qubits. *)
Lemma pair_dist_of r a b pa pb : wf r -> In (a, pa) r -> In (b, pb) r -> pair_dist r (a, b) = dist pa pb.
Proof. intros W Ha Hb. unfold pair_dist. simpl. rewrite (coord_in r a pa W Ha), (coord_in r b pb W Hb). reflexivity. Qed.
Lemma dist_sym a b : dist a b = dist b a.
Proof. unfold dist. f_equal. ring. Qed.
Theorem C38_min_distance : forall r, wf r ->
  (forall a b pa pb, In (a, pa) r -> In (b, pb) r -> a <> b -> min_distance r <= dist pa pb) /\
  ((2 <= length r)%nat -> exists a b pa pb, In (a, pa) r /\ In (b, pb) r /\ a <> b /\ min_distance r = dist pa pb) /\
  ((length r < 2)%nat -> min_distance r = 0).
Proof.
  intros r W. destruct (C38_pairs r W) as [_ HP].
  assert (ED : map snd (distances r) = map (pair_dist r) (all_node_pairs r)) by (unfold distances; rewrite map_map; reflexivity).
  unfold min_distance. rewrite ED. split; [|split].
  - assert (G : forall a b pa pb, In (a, pa) r -> In (b, pb) r -> (a < b)%nat -> match map (pair_dist r) (all_node_pairs r) with [] => 0 | x :: t => rmin x t end <= dist pa pb).
    { intros a b pa pb Ha Hb Hlt. assert (Hin : In (a, b) (all_node_pairs r)) by (apply HP; split; [apply (in_map fst) in Ha; exact Ha|split; [apply (in_map fst) in Hb; exact Hb|exact Hlt]]).
      rewrite <- (pair_dist_of r a b pa pb W Ha Hb). apply (in_map (pair_dist r)) in Hin. destruct (map (pair_dist r) (all_node_pairs r)); [destruct Hin|]. apply rmin_le, Hin. }
    intros a b pa pb Ha Hb Hne. destruct (Nat.lt_total a b) as [H|[H|H]]; [apply (G a b); assumption|contradiction|rewrite dist_sym; apply (G b a); assumption].
  - intros L. assert (NE : all_node_pairs r <> []).
    { destruct r as [|[a pa] [|[b pb] r]]; simpl in L; try lia. intros E.
      assert (Hab : a <> b) by (inversion W as [|? ? N _]; subst; intros ->; apply N; left; reflexivity).
      destruct (Nat.lt_total a b) as [H|[H|H]]; [|contradiction|].
      - assert (In (a, b) (all_node_pairs ((a, pa) :: (b, pb) :: r))) by (apply HP; simpl; auto). rewrite E in H0. destruct H0.
      - assert (In (b, a) (all_node_pairs ((a, pa) :: (b, pb) :: r))) by (apply HP; simpl; auto). rewrite E in H0. destruct H0. }
    destruct (map (pair_dist r) (all_node_pairs r)) as [|x t] eqn:E; [destruct (all_node_pairs r); [contradiction|discriminate E]|].
    pose proof (rmin_in x t) as Hin. rewrite <- E in Hin. apply in_map_iff in Hin as ((a & b) & E1 & Hin). apply HP in Hin as (Ha & Hb & Hlt).
    destruct (coord_def r a Ha) as [pa Ca]. destruct (coord_def r b Hb) as [pb Cb]. apply coord_some in Ca. apply coord_some in Cb.
    exists a, b, pa, pb. repeat (split; [assumption || lia|]). rewrite <- E1. apply pair_dist_of; assumption.
  - intros L. assert (E : all_node_pairs r = []).
    { destruct r as [|[a pa] [|e r]]; simpl in L; try lia; unfold all_node_pairs; simpl; [reflexivity|]. rewrite Nat.ltb_irrefl. reflexivity. }
    rewrite E. reflexivity.
Qed.

(** * Scaling *)
Definition scaled (k : R) (r : register) : register := map (fun e => (fst e, (fst (snd e) * k, snd (snd e) * k))) r.
Lemma rescale_scaled r s : rescale_coords r s = scaled s r.
Proof. unfold rescale_coords, Register_init, scale_node_positions, scaled. replace (s / 1) with s by field. reflexivity. Qed.
Lemma support_scaled k r : support (scaled k r) = support r.
Proof. unfold support, scaled. rewrite map_map. reflexivity. Qed.
Lemma coord_scaled k r i : coord (scaled k r) i = option_map (fun p => (fst p * k, snd p * k)) (coord r i).
Proof.
  unfold coord, scaled. induction r as [|[j b] r IH]; simpl; [reflexivity|]. destruct (Nat.eqb j i); [reflexivity|exact IH].
Qed.
Lemma pair_dist_scaled k r e : pair_dist (scaled k r) e = Rabs k * pair_dist r e.
Proof.
  unfold pair_dist. rewrite !coord_scaled. destruct (coord r (fst e)) as [a|], (coord r (snd e)) as [b|]; simpl; try ring. apply dist_scale.
Qed.
Lemma min_distance_scaled k r : min_distance (scaled k r) = Rabs k * min_distance r.
Proof.
  unfold min_distance, distances. rewrite !map_map. simpl. unfold all_node_pairs. rewrite support_scaled.
  rewrite (map_ext _ (fun e => Rabs k * pair_dist r e)) by (intros e; apply pair_dist_scaled).
  destruct (filter _ _) as [|e l]; simpl; [ring|]. generalize (pair_dist r e) as x. induction l as [|f l IH]; intros x; simpl; [reflexivity|].
  rewrite IH. pose proof (Rabs_pos k). unfold Rmin. destruct (Rle_dec _ _) as [L1|L1], (Rle_dec x _) as [L2|L2]; try reflexivity; apply Rle_antisym; nra.
Qed.

(** rescale_coords keeps the qubits and multiplies every pairwise distance, and the smallest one, by |s|. *)
Theorem C38_rescale : forall r s, wf r -> wf (rescale_coords r s) /\ support (rescale_coords r s) = support r /\
  (forall a b, In a (support r) -> In b (support r) -> exists pa pb qa qb,
    coord r a = Some pa /\ coord r b = Some pb /\ coord (rescale_coords r s) a = Some qa /\ coord (rescale_coords r s) b = Some qb /\
    dist qa qb = Rabs s * dist pa pb) /\
  min_distance (rescale_coords r s) = Rabs s * min_distance r.
Proof.
  intros r s W. rewrite rescale_scaled. split; [unfold wf; rewrite support_scaled; exact W|]. split; [apply support_scaled|]. split; [|apply min_distance_scaled].
  intros a b Ha Hb. destruct (coord_def r a Ha) as [pa Ca]. destruct (coord_def r b Hb) as [pb Cb]. exists pa, pb. rewrite !coord_scaled, Ca, Cb. simpl.
  do 2 eexists. repeat (split; [reflexivity|]). apply dist_scale.
Qed.
Theorem C38_rescale_compose : forall r s t, rescale_coords (rescale_coords r s) t = rescale_coords r (s * t).
Proof.
  intros r s t. rewrite !rescale_scaled. unfold scaled. rewrite map_map. apply map_ext. intros [i [x y]]. simpl. f_equal. f_equal; ring.
Qed.

(** A register built with a spacing has that smallest distance, unless two qubits coincide or there is at most one qubit;
    without spacing the positions are kept. *)
Theorem C38_spacing : forall g s, 0 < s -> min_distance g <> 0 -> min_distance (Register_init g (Some s)) = s.
Proof.
  intros g s Hs Hm. unfold Register_init. destruct (Req_EM_T (min_distance g) 0) as [E|_]; [contradiction|].
  change (scale_node_positions g (min_distance g) s) with (scaled (s / min_distance g) g). rewrite min_distance_scaled.
  assert (P : 0 < min_distance g).
  { assert (0 <= min_distance g); [|lra]. unfold min_distance, distances. rewrite map_map. simpl.
    destruct (map _ (all_node_pairs g)) as [|x t] eqn:E; [lra|]. pose proof (rmin_in x t) as H. rewrite <- E in H. apply in_map_iff in H as (e & <- & _).
    unfold pair_dist. destruct (coord g (fst e)), (coord g (snd e)); try lra. apply dist_pos. }
  rewrite Rabs_pos_eq; [field; lra|]. apply Rmult_le_pos; [lra|left; apply Rinv_0_lt_compat; exact P].
Qed.

(** * Serialisation *)
(** Writing and reading back gives the same register when its smallest distance is one (the default spacing) or zero. *)
Theorem C38_round_trip_partial : forall r, min_distance r = 1 \/ min_distance r = 0 -> from_dict (to_dict r) = r.
Proof.
  intros r H. unfold from_dict, to_dict, Register_init. destruct (Req_EM_T (min_distance r) 0) as [E|N]; [reflexivity|]. destruct H as [H|H]; [|contradiction].
  rewrite H. unfold scale_node_positions. rewrite <- (map_id r) at 2. apply map_ext. intros [i [x y]]. simpl. f_equal. f_equal; field.
Qed.
(** Otherwise the register read back is the original one divided by its smallest distance: it differs as soon as a qubit is
    away from the origin. *)
Theorem C38_round_trip_rescales : forall r, min_distance r <> 0 -> from_dict (to_dict r) = rescale_coords r (/ min_distance r) /\ min_distance (from_dict (to_dict r)) = 1.
Proof.
  intros r H. split; [|apply C38_spacing; [lra|exact H]]. rewrite rescale_scaled. unfold from_dict, to_dict, Register_init. destruct (Req_EM_T (min_distance r) 0); [contradiction|].
  unfold scale_node_positions, scaled. apply map_ext. intros [i [x y]]. simpl. f_equal. f_equal; unfold Rdiv; ring.
Qed.

(** * Lattices *)
Lemma dist_line i j : dist (INR i, 0) (INR j, 0) = Rabs (INR i - INR j).
Proof. unfold dist. simpl fst; simpl snd. replace ((INR i - INR j) ^ 2 + (0 - 0) ^ 2) with (Rsqr (INR i - INR j)) by (unfold Rsqr; ring). apply sqrt_Rsqr_abs. Qed.
Lemma int_gap i j : i <> j -> 1 <= Rabs (INR i - INR j).
Proof.
  intros H. destruct (Nat.lt_total i j) as [L|[L|L]]; [|contradiction|].
  - rewrite Rabs_minus_sym. assert (INR i + 1 <= INR j) by (rewrite <- S_INR; apply le_INR; lia). rewrite Rabs_pos_eq; lra.
  - assert (INR j + 1 <= INR i) by (rewrite <- S_INR; apply le_INR; lia). rewrite Rabs_pos_eq; lra.
Qed.
Lemma unit_min r : wf r -> (forall a b pa pb, In (a, pa) r -> In (b, pb) r -> a <> b -> 1 <= dist pa pb) ->
  (exists a b pa pb, In (a, pa) r /\ In (b, pb) r /\ a <> b /\ dist pa pb = 1) -> min_distance r = 1.
Proof.
  intros W H (a & b & pa & pb & Ha & Hb & Hne & E). destruct (C38_min_distance r W) as (M1 & M2 & _). apply Rle_antisym; [rewrite <- E; apply (M1 a b); assumption|].
  assert (L : (2 <= length r)%nat).
  { destruct r as [|e [|e' r]]; simpl; try lia; [destruct Ha|]. destruct Ha as [Ha|[]], Hb as [Hb|[]]. congruence. }
  destruct (M2 L) as (c & d & pc & pd & Hc & Hd & Hcd & ->). apply (H c d); assumption.
Qed.
Lemma line_wf n : wf (line_graph n).
Proof. unfold wf, support, line_graph. rewrite map_map. simpl. rewrite map_id. apply seq_NoDup. Qed.
Lemma line_min n : (2 <= n)%nat -> min_distance (line_graph n) = 1.
Proof.
  intros Hn. apply unit_min; [apply line_wf| |].
  - intros a b pa pb Ha Hb Hne. apply in_map_iff in Ha as (i & Ea & _). apply in_map_iff in Hb as (j & Eb & _). injection Ea as <- <-. injection Eb as <- <-. rewrite dist_line. apply int_gap, Hne.
  - exists 0%nat, 1%nat, (INR 0, 0), (INR 1, 0). split; [apply in_map_iff; exists 0%nat; split; [reflexivity|apply in_seq; lia]|]. split; [apply in_map_iff; exists 1%nat; split; [reflexivity|apply in_seq; lia]|].
    split; [discriminate|]. rewrite dist_line. simpl. rewrite Rabs_minus_sym, Rabs_pos_eq; lra.
Qed.
(** Register.line(n, s): qubits 0..n-1 in a row, qubits i and j at distance s |i-j|; smallest distance s. *)
Theorem C38_line : forall n s, (2 <= n)%nat -> 0 < s ->
  support (line n s) = seq 0 n /\ min_distance (line n s) = s /\
  forall i j, (i < n)%nat -> (j < n)%nat -> exists pi pj, coord (line n s) i = Some pi /\ coord (line n s) j = Some pj /\ dist pi pj = s * Rabs (INR i - INR j).
Proof.
  intros n s Hn Hs. assert (M := line_min n Hn).
  assert (E : line n s = scaled s (line_graph n)).
  { unfold line, Register_init. rewrite M. destruct (Req_EM_T 1 0); [lra|]. unfold scale_node_positions, scaled. replace (s / 1) with s by field. reflexivity. }
  split; [|split].
  - rewrite E, support_scaled. unfold support, line_graph. rewrite map_map. simpl. apply map_id.
  - unfold line. apply C38_spacing; [exact Hs|lra].
  - intros i j Hi Hj. rewrite E, !coord_scaled.
    rewrite (coord_in (line_graph n) i (INR i, 0) (line_wf n)), (coord_in (line_graph n) j (INR j, 0) (line_wf n)); try (apply in_map_iff; eexists; split; [reflexivity|apply in_seq; lia]).
    simpl. do 2 eexists. split; [reflexivity|]. split; [reflexivity|]. pose proof (dist_scale s (INR i, 0) (INR j, 0)) as Q. simpl in Q. rewrite Q, dist_line. rewrite (Rabs_pos_eq s) by lra. reflexivity.
Qed.

Lemma enum_fst {A} (l : list A) : forall k, map fst (enumerate k l) = seq k (length l).
Proof. induction l as [|x l IH]; intros k; simpl; [reflexivity|]. rewrite IH. reflexivity. Qed.
Lemma enum_nth {A} (l : list A) : forall k i x, In (i, x) (enumerate k l) <-> (k <= i)%nat /\ nth_error l (i - k) = Some x.
Proof.
  induction l as [|y l IH]; intros k i x; simpl.
  - split; [intros []|]. intros [_ H]. destruct (i - k)%nat; discriminate H.
  - rewrite IH. split.
    + intros [H|[H1 H2]]; [injection H as <- <-; rewrite Nat.sub_diag; auto|]. split; [lia|]. replace (i - k)%nat with (S (i - S k))%nat by lia. exact H2.
    + intros [H1 H2]. destruct (Nat.eq_dec i k) as [->|]; [rewrite Nat.sub_diag in H2; left; injection H2 as ->; reflexivity|]. right. split; [lia|]. replace (i - k)%nat with (S (i - S k))%nat in H2 by lia. exact H2.
Qed.
Lemma dist_grid a b c d : (a, b) <> (c, d) -> 1 <= dist (INR a, INR b) (INR c, INR d).
Proof.
  intros H. unfold dist. simpl fst; simpl snd. rewrite <- sqrt_1. apply sqrt_le_1_alt.
  assert (Q : forall i j, i <> j -> 1 <= (INR i - INR j) ^ 2).
  { intros i j Hij. pose proof (int_gap i j Hij) as G. rewrite <- (pow2_abs (INR i - INR j)). nra. }
  destruct (Nat.eq_dec a c) as [->|N].
  - assert (b <> d) by congruence. specialize (Q b d H0). pose proof (pow2_ge_0 (INR c - INR c)). lra.
  - specialize (Q a c N). pose proof (pow2_ge_0 (INR b - INR d)). lra.
Qed.
(** A rectangular lattice with at least two qubits has row*col qubits and smallest distance equal to the spacing. *)
Theorem C38_rectangular : forall qrow qcol s, (2 <= qrow * qcol)%nat -> 0 < s ->
  length (rectangular_lattice qrow qcol s) = (qcol * qrow)%nat /\ min_distance (rectangular_lattice qrow qcol s) = s.
Proof.
  intros qr qc s Hn Hs. unfold rectangular_lattice. set (cs := map _ (list_prod _ _)).
  assert (Lcs : length cs = (qc * qr)%nat) by (unfold cs; rewrite map_length, prod_length, !seq_length; reflexivity).
  assert (W : wf (enumerate 0 cs)) by (unfold wf, support; rewrite enum_fst; apply seq_NoDup).
  assert (M : min_distance (enumerate 0 cs) = 1).
  { apply unit_min; [exact W| |].
    - intros a b pa pb Ha Hb Hne. apply enum_nth in Ha as [_ Ha]. apply enum_nth in Hb as [_ Hb]. rewrite Nat.sub_0_r in Ha, Hb. unfold cs in Ha, Hb.
      rewrite nth_error_map in Ha, Hb. destruct (nth_error (list_prod (seq 0 qc) (seq 0 qr)) a) as [[x y]|] eqn:E1; [|discriminate]. destruct (nth_error (list_prod (seq 0 qc) (seq 0 qr)) b) as [[z w]|] eqn:E2; [|discriminate].
      injection Ha as <-. injection Hb as <-. apply dist_grid. intros E. apply Hne. eapply NoDup_nth_error; [apply prod_nodup; apply seq_NoDup|apply nth_error_Some; rewrite E1; discriminate|]. rewrite E1, E2, E. reflexivity.
    - assert (G : forall x y, (x < qc)%nat -> (y < qr)%nat -> exists k, In (k, (INR x, INR y)) (enumerate 0 cs)).
      { intros x y Hx Hy. assert (Hin : In (INR x, INR y) cs) by (unfold cs; apply in_map_iff; exists (x, y); split; [reflexivity|apply in_prod_iff; split; apply in_seq; lia]).
        apply In_nth_error in Hin as [k Hk]. exists k. apply enum_nth. rewrite Nat.sub_0_r. split; [lia|exact Hk]. }
      assert (two : (2 <= qc)%nat /\ (1 <= qr)%nat \/ (1 <= qc)%nat /\ (2 <= qr)%nat) by (destruct qr as [|[|qr]], qc as [|[|qc]]; simpl in Hn; lia).
      destruct two as [[A B]|[A B]].
      + destruct (G 0%nat 0%nat) as [k Hk]; [lia|lia|]. destruct (G 1%nat 0%nat) as [l Hl]; [lia|lia|]. exists k, l, (INR 0, INR 0), (INR 1, INR 0). repeat (split; [assumption|]). split.
        * intros ->. apply enum_nth in Hk as [_ Hk]. apply enum_nth in Hl as [_ Hl]. rewrite Hk in Hl. injection Hl. simpl. lra.
        * unfold dist. simpl. replace ((0 - 1) * ((0 - 1) * 1) + (0 - 0) * ((0 - 0) * 1)) with 1 by ring. apply sqrt_1.
      + destruct (G 0%nat 0%nat) as [k Hk]; [lia|lia|]. destruct (G 0%nat 1%nat) as [l Hl]; [lia|lia|]. exists k, l, (INR 0, INR 0), (INR 0, INR 1). repeat (split; [assumption|]). split.
        * intros ->. apply enum_nth in Hk as [_ Hk]. apply enum_nth in Hl as [_ Hl]. rewrite Hk in Hl. injection Hl. simpl. lra.
        * unfold dist. simpl. replace ((0 - 0) * ((0 - 0) * 1) + (0 - 1) * ((0 - 1) * 1)) with 1 by ring. apply sqrt_1. }
  split; [|apply C38_spacing; [exact Hs|lra]]. unfold Register_init. destruct (Req_EM_T _ 0); [lra|]. unfold scale_node_positions. rewrite map_length.
  rewrite <- Lcs. rewrite <- (seq_length (length cs) 0). rewrite <- (enum_fst cs 0), map_length. reflexivity.
Qed.

(** * Cases *)
Example C38_line_case : min_distance (line 4 8) = 8.
Proof. apply C38_line; [lia|lra]. Qed.
(** A line of two qubits with spacing 2 does not survive the round trip. *)
Theorem C38_round_trip_refuted : exists n s, 0 < s /\ from_dict (to_dict (line n s)) <> line n s.
Proof.
  exists 2%nat, 2. split; [lra|]. intros E. destruct (C38_line 2 2 (le_n 2) ltac:(lra)) as (_ & M & _).
  destruct (C38_round_trip_rescales (line 2 2)) as [_ M']; [lra|]. rewrite E in M'. lra.
Qed.
Print Assumptions C38_distance.
Print Assumptions C38_pairs.
Print Assumptions C38_min_distance.
Print Assumptions C38_rescale.
Print Assumptions C38_rescale_compose.
Print Assumptions C38_spacing.
Print Assumptions C38_round_trip_partial.
Print Assumptions C38_round_trip_rescales.
Print Assumptions C38_round_trip_refuted.
Print Assumptions C38_line.
Print Assumptions C38_rectangular.
