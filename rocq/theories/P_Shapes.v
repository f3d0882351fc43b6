(** C73: shapes of registers. *)
From Coq Require Import Reals List Arith Bool ZArith Lia Lra.
From Verif Require Import M_Register P_Register M_Shapes.
Import ListNotations.
Open Scope R_scope.

(** The register has the qubits 0 .. n-1, the smallest distance [s], and joins two qubits exactly when they are at that distance. *)
Definition shape (g : graph) (n : nat) (s : R) : Prop :=
  support (g_nodes g) = seq 0 n /\ min_distance (g_nodes g) = s /\
  (forall i j, In (i, j) (g_edges g) <-> (i < j < n)%nat /\ pair_dist (g_nodes g) (i, j) = s) /\
  (forall e d, In (e, d) (edge_distances g) -> d = s).

(** ** Numbered points *)
Lemma enum_wf (l : list point) : wf (enumerate 0 l).
Proof. unfold wf, support. rewrite enum_fst. apply seq_NoDup. Qed.
Lemma combine_enum {A} (l : list A) : forall k, combine (seq k (length l)) l = enumerate k l.
Proof. induction l as [|x l IH]; intros k; [reflexivity|]. cbn [length seq combine enumerate]. rewrite IH. reflexivity. Qed.
Lemma map_enum {A} (f : nat -> A) n : forall k, map (fun i => (i, f i)) (seq k n) = enumerate k (map f (seq k n)).
Proof. induction n as [|n IH]; intros k; [reflexivity|]. cbn [seq map enumerate]. rewrite IH. reflexivity. Qed.
Lemma enum_coord (l : list point) i p : nth_error l i = Some p -> coord (enumerate 0 l) i = Some p.
Proof. intros H. apply coord_in; [apply enum_wf|]. apply enum_nth. rewrite Nat.sub_0_r. split; [lia|exact H]. Qed.

(** A numbered list of points whose distances are D i j / k, with D at least one and one exactly at the edges. *)
Lemma shape_of (l : list point) edges k (D : nat -> nat -> R) s : 0 < k -> 0 < s ->
  (forall i j p q, (i < j)%nat -> nth_error l i = Some p -> nth_error l j = Some q -> dist p q = k * D i j) ->
  (forall i j, (i < j < length l)%nat -> 1 <= D i j) ->
  (forall i j, In (i, j) edges <-> (i < j < length l)%nat /\ D i j = 1) -> edges <> [] ->
  shape (Register_graph (Graph (enumerate 0 l) edges) (Some s)) (length l) s /\
  (forall i p, nth_error l i = Some p -> coord (g_nodes (Register_graph (Graph (enumerate 0 l) edges) (Some s))) i = Some (fst p * (s / k), snd p * (s / k))).
Proof.
  intros Hk Hs HD H1 HE NE. assert (W := enum_wf l).
  assert (M : min_distance (enumerate 0 l) = k).
  { destruct (C38_min_distance (enumerate 0 l) W) as (M1 & M2 & _). destruct edges as [|(i, j) edges]; [congruence|].
    destruct (proj1 (HE i j) (or_introl eq_refl)) as ((Lij & Lj) & D1).
    assert (Ei : exists p, nth_error l i = Some p) by (destruct (nth_error l i) eqn:E; [eauto|apply nth_error_None in E; lia]). destruct Ei as (p & Ei).
    assert (Ej : exists p, nth_error l j = Some p) by (destruct (nth_error l j) eqn:E; [eauto|apply nth_error_None in E; lia]). destruct Ej as (q & Ej).
    apply Rle_antisym.
    - replace k with (dist p q) by (rewrite (HD i j p q Lij Ei Ej), D1; ring). apply (M1 i j); [apply enum_nth|apply enum_nth|lia]; rewrite Nat.sub_0_r; (split; [lia|assumption]).
    - assert (L2 : (2 <= length (enumerate 0 l))%nat). { rewrite <- (map_length fst), enum_fst, seq_length. lia. }
      destruct (M2 L2) as (a & b & pa & pb & Ha & Hb & Hab & ->). apply enum_nth in Ha as (_ & Ha). apply enum_nth in Hb as (_ & Hb). rewrite Nat.sub_0_r in Ha, Hb.
      assert (G : forall x y px py, (x < y)%nat -> nth_error l x = Some px -> nth_error l y = Some py -> k <= dist px py).
      { intros x y px py Lxy Hx Hy. rewrite (HD x y px py Lxy Hx Hy). assert (y < length l)%nat by (apply nth_error_Some; rewrite Hy; discriminate). specialize (H1 x y ltac:(lia)). nra. }
      destruct (Nat.lt_total a b) as [L|[L|L]]; [apply (G a b pa pb L Ha Hb)|congruence|rewrite dist_sym; apply (G b a pb pa L Hb Ha)]. }
  assert (E : Register_init (enumerate 0 l) (Some s) = scaled (s / k) (enumerate 0 l)).
  { unfold Register_init. rewrite M. destruct (Req_EM_T k 0); [lra|]. reflexivity. }
  assert (Sk : 0 < s / k) by (apply Rdiv_lt_0_compat; lra).
  assert (P : forall i j, (i < j < length l)%nat -> pair_dist (scaled (s / k) (enumerate 0 l)) (i, j) = s * D i j).
  { intros i j (Lij & Lj). rewrite pair_dist_scaled, Rabs_pos_eq by lra.
    assert (Ei : exists p, nth_error l i = Some p) by (destruct (nth_error l i) eqn:E0; [eauto|apply nth_error_None in E0; lia]). destruct Ei as (p & Ei).
    assert (Ej : exists p, nth_error l j = Some p) by (destruct (nth_error l j) eqn:E0; [eauto|apply nth_error_None in E0; lia]). destruct Ej as (q & Ej).
    unfold pair_dist. cbn [fst snd]. rewrite (enum_coord l i p Ei), (enum_coord l j q Ej), (HD i j p q Lij Ei Ej). field. lra. }
  assert (A : forall i j, In (i, j) edges <-> (i < j < length l)%nat /\ pair_dist (scaled (s / k) (enumerate 0 l)) (i, j) = s).
  { intros i j. rewrite HE. split; intros (L & Q); (split; [exact L|]); [rewrite (P i j L), Q; ring|]. rewrite (P i j L) in Q. apply Rmult_eq_reg_l with s; [rewrite Q; ring|lra]. }
  unfold Register_graph. cbn [g_nodes g_edges]. split; [split; [|split; [|split]]|].
  - cbn [g_nodes]. rewrite E, support_scaled. unfold support. apply enum_fst.
  - cbn [g_nodes]. apply C38_spacing; [exact Hs|rewrite M; lra].
  - cbn [g_nodes g_edges]. rewrite E. exact A.
  - unfold edge_distances. cbn [g_nodes g_edges]. intros (i, j) d I. apply in_map_iff in I as ((i', j') & I & In'). apply A in In'. apply (f_equal snd) in I. cbn [snd] in I. rewrite E in I. rewrite <- I. apply In'.
  - intros i p Hi. rewrite E, coord_scaled, (enum_coord l i p Hi). reflexivity.
Qed.

(** ** Lines *)
Lemma path_in n i j : In (i, j) (path_edges n) <-> (i < j < n)%nat /\ j = S i.
Proof.
  unfold path_edges. rewrite in_map_iff. split.
  - intros (k & E & I). injection E as <- <-. apply in_seq in I. lia.
  - intros ((L1 & L2) & ->). exists i. split; [reflexivity|]. apply in_seq. lia.
Qed.
Lemma ring_in n i j : In (i, j) (ring_edges n) <-> (i < j < n)%nat /\ (j = S i \/ (i = 0%nat /\ j = (n - 1)%nat)).
Proof.
  unfold ring_edges. rewrite in_app_iff, path_in. destruct (Nat.ltb_spec 2 n) as [L|L]; cbn [In].
  - split; [intros [H|[H|[]]]; [lia|injection H as <- <-; lia]|]. intros (H & [G|(-> & ->)]); [left; lia|right; left; reflexivity].
  - split; [intros [H|[]]; lia|]. intros (H & G). left. split; [exact H|]. lia.
Qed.
Lemma gap_one i j : (i < j)%nat -> 1 <= Rabs (INR i - INR j) /\ (Rabs (INR i - INR j) = 1 <-> j = S i).
Proof.
  intros H. assert (INR i + 1 <= INR j) by (rewrite <- S_INR; apply le_INR; lia). rewrite Rabs_left by lra. split; [lra|]. split.
  - intros E. apply INR_eq. rewrite S_INR. lra.
  - intros ->. rewrite S_INR. ring.
Qed.
Theorem C73_line : forall n s, (2 <= n)%nat -> 0 < s -> shape (line_register n s) n s /\
  forall i, (i < n)%nat -> coord (g_nodes (line_register n s)) i = Some (s * INR i, 0).
Proof.
  intros n s Hn Hs. unfold line_register, line_graph. rewrite (map_enum (fun i => (INR i, 0)) n 0). set (l := map (fun i => (INR i, 0)) (seq 0 n) : list point).
  assert (Ll : @length point l = n) by (unfold l; rewrite map_length; apply seq_length).
  assert (Nl : forall i p, nth_error l i = Some p -> p = (INR i, 0) /\ (i < n)%nat).
  { intros i p H. assert (Li : (i < n)%nat) by (rewrite <- Ll; apply nth_error_Some; rewrite H; discriminate). split; [|exact Li]. unfold l in H. rewrite nth_error_map in H.
    assert (Q : nth_error (seq 0 n) i = Some i) by (rewrite (nth_error_nth' (seq 0 n) 0%nat) by (rewrite seq_length; exact Li); rewrite seq_nth by exact Li; reflexivity). rewrite Q in H. injection H as <-. reflexivity. }
  destruct (shape_of l (path_edges n) 1 (fun i j => Rabs (INR i - INR j)) s) as (S1 & C1); [lra|exact Hs| | | | |].
  - intros i j p q L Hi Hj. apply Nl in Hi as (-> & _). apply Nl in Hj as (-> & _). rewrite dist_line. ring.
  - intros i j (L & _). apply gap_one, L.
  - intros i j. rewrite path_in, Ll. split; intros (L & Q); (split; [exact L|]); apply (gap_one i j); (lia || assumption).
  - intros E. assert (I : In (0, 1)%nat (path_edges n)) by (apply path_in; lia). rewrite E in I. destruct I.
  - rewrite Ll in S1. split; [exact S1|]. intros i Hi. eapply eq_trans; [apply (C1 i (INR i, 0))|cbn [fst snd]; do 2 f_equal; field].
    unfold l. rewrite nth_error_map, (nth_error_nth' (seq 0 n) 0%nat) by (rewrite seq_length; exact Hi). rewrite seq_nth by exact Hi. reflexivity.
Qed.

(** ** Squares *)
(** The k-th point of the boundary of the square with corners (0,0), (0,m), (-m,m), (-m,0), in this order from (0,0). *)
Open Scope Z_scope.
Definition boundary (m k : Z) : Z * Z :=
  if k <=? m then (0, k) else if k <=? 2 * m then (m - k, m) else if k <=? 3 * m then (- m, 3 * m - k) else (k - 4 * m, 0).
Lemma boundary_far m i j : 1 <= m -> 0 <= i < j -> j < 4 * m ->
  let dx := fst (boundary m i) - fst (boundary m j) in let dy := snd (boundary m i) - snd (boundary m j) in
  1 <= dx * dx + dy * dy /\ (dx * dx + dy * dy = 1 <-> j = i + 1 \/ (i = 0 /\ j = 4 * m - 1)).
Proof.
  intros Hm Hi Hj dx dy.
  assert (S : forall x y : Z, 0 <= x * x + y * y /\ (x * x + y * y = 0 <-> x = 0 /\ y = 0) /\ (x * x + y * y = 1 <-> (x = 0 /\ (y = 1 \/ y = -1)) \/ (y = 0 /\ (x = 1 \/ x = -1)))).
  { intros x y. repeat split; intros; nia. }
  destruct (S dx dy) as (S0 & S1 & S2).
  assert (B : dx = fst (boundary m i) - fst (boundary m j) /\ dy = snd (boundary m i) - snd (boundary m j)) by (split; reflexivity). clearbody dx dy. destruct B as (Bx & By).
  unfold boundary in Bx, By.
  destruct (Z.leb_spec i m), (Z.leb_spec i (2 * m)), (Z.leb_spec i (3 * m)), (Z.leb_spec j m), (Z.leb_spec j (2 * m)), (Z.leb_spec j (3 * m)); cbn [fst snd] in Bx, By; try lia; (split; [lia|rewrite S2; lia]).
Qed.
Open Scope R_scope.
Definition boundary_point (m k : nat) : point := (IZR (fst (boundary (Z.of_nat m) (Z.of_nat k))), IZR (snd (boundary (Z.of_nat m) (Z.of_nat k)))).
(** The direction after k steps. *)
Definition direction (m k : nat) : point := if Nat.ltb k m then (0, 1) else if Nat.ltb k (2 * m) then (-1, 0) else if Nat.ltb k (3 * m) then (0, -1) else (1, 0).
Lemma boundary_step m k : (1 <= m)%nat -> (k < 4 * m)%nat -> let p := boundary_point m k in let d := direction m k in
  (fst p + fst d, snd p + snd d) = boundary_point m (S k).
Proof.
  intros Hm Hk. cbn zeta. unfold boundary_point, direction. rewrite Nat2Z.inj_succ. unfold boundary. set (M := Z.of_nat m). set (K := Z.of_nat k).
  destruct (Nat.ltb_spec k m), (Nat.ltb_spec k (2 * m)), (Nat.ltb_spec k (3 * m)); try lia;
  destruct (Z.leb_spec K M), (Z.leb_spec K (2 * M)), (Z.leb_spec K (3 * M)), (Z.leb_spec (Z.succ K) M), (Z.leb_spec (Z.succ K) (2 * M)), (Z.leb_spec (Z.succ K) (3 * M)); try lia;
  cbn [fst snd]; f_equal; rewrite <- ?plus_IZR; try (f_equal; lia); (rewrite Rplus_0_r; f_equal; lia).
Qed.
Lemma walk_spec m steps : forall k, (1 <= m)%nat -> (k + steps <= 4 * m - 1)%nat ->
  walk (S m) steps (boundary_point m k) (direction m k) (1 + Nat.modulo k m) = map (boundary_point m) (seq (S k) steps).
Proof.
  induction steps as [|steps IH]; intros k Hm Hk; [reflexivity|]. cbn [walk seq map]. rewrite (boundary_step m k Hm) by lia. f_equal.
  pose proof (Nat.mod_upper_bound k m ltac:(lia)) as U. pose proof (Nat.div_mod k m ltac:(lia)) as DM.
  set (t := Nat.modulo k m) in *. set (q := Nat.div k m) in *.
  assert (Hq : (q < 4)%nat) by nia.
  destruct (Nat.eq_dec (t + 1) m) as [E|E].
  - assert (C0 : Nat.modulo (1 + t + 1) (S m) = 0%nat) by (replace (1 + t + 1)%nat with (S m) by lia; apply Nat.mod_same; lia). rewrite C0. cbn [Nat.eqb].
    assert (SK : (S k = m * (q + 1))%nat) by nia.
    assert (M0 : Nat.modulo (S k) m = 0%nat) by (rewrite SK, Nat.mul_comm; apply Nat.mod_mul; lia).
    assert (RD : rotate_left (direction m k) = direction m (S k)).
    { unfold direction, rotate_left. assert (Hq' : (q = 0 \/ q = 1 \/ q = 2 \/ q = 3)%nat) by lia.
      destruct Hq' as [-> |[-> |[-> | ->]]]; destruct (Nat.ltb_spec k m), (Nat.ltb_spec k (2 * m)), (Nat.ltb_spec k (3 * m)), (Nat.ltb_spec (S k) m), (Nat.ltb_spec (S k) (2 * m)), (Nat.ltb_spec (S k) (3 * m)); try lia; cbn [fst snd]; f_equal; lra. }
    rewrite RD. rewrite <- (IH (S k) Hm ltac:(lia)), M0. reflexivity.
  - assert (C1 : Nat.modulo (1 + t + 1) (S m) = (1 + (t + 1))%nat) by (rewrite Nat.mod_small by lia; lia). rewrite C1. change (Nat.eqb (1 + (t + 1)) 0) with false. cbn match.
    assert (M1 : Nat.modulo (S k) m = (t + 1)%nat). { symmetry. apply (Nat.mod_unique (S k) m q); lia. }
    assert (RD : direction m k = direction m (S k)).
    { unfold direction. assert (Hq' : (q = 0 \/ q = 1 \/ q = 2 \/ q = 3)%nat) by lia.
      destruct Hq' as [-> |[-> |[-> | ->]]]; destruct (Nat.ltb_spec k m), (Nat.ltb_spec k (2 * m)), (Nat.ltb_spec k (3 * m)), (Nat.ltb_spec (S k) m), (Nat.ltb_spec (S k) (2 * m)), (Nat.ltb_spec (S k) (3 * m)); try lia; reflexivity. }
    rewrite RD. rewrite <- (IH (S k) Hm ltac:(lia)), M1. reflexivity.
Qed.
Lemma square_points m : (1 <= m)%nat -> (0, 0) :: walk (S m) (4 * m - 1) (0, 0) (0, 1) 1 = map (boundary_point m) (seq 0 (4 * m)).
Proof.
  intros Hm. pose proof (walk_spec m (4 * m - 1) 0 Hm ltac:(lia)) as W. rewrite Nat.mod_0_l in W by lia.
  assert (B0 : boundary_point m 0 = (0, 0)). { unfold boundary_point, boundary. destruct (Z.leb_spec (Z.of_nat 0) (Z.of_nat m)); [reflexivity|lia]. }
  assert (D0 : direction m 0 = (0, 1)). { unfold direction. destruct (Nat.ltb_spec 0 m); [reflexivity|lia]. }
  rewrite B0, D0 in W. change (1 + 0)%nat with 1%nat in W. rewrite W. destruct (4 * m)%nat as [|n] eqn:E; [lia|]. cbn [seq map]. rewrite B0. replace (S n - 1)%nat with n by lia. reflexivity.
Qed.
Lemma dist_Z a b c e : dist (IZR a, IZR b) (IZR c, IZR e) = sqrt (IZR ((a - c) * (a - c) + (b - e) * (b - e))).
Proof. unfold dist. cbn [fst snd]. f_equal. rewrite plus_IZR, !mult_IZR, !minus_IZR. ring. Qed.
Lemma dist_shift p q c : dist (fst p - fst c, snd p - snd c) (fst q - fst c, snd q - snd c) = dist p q.
Proof. unfold dist. cbn [fst snd]. f_equal. ring. Qed.

(** [Register.square(side)]: 4 (side - 1) qubits on the boundary of a square, neighbours at the spacing; differences of positions
    are [s] times those of [boundary]; the positions have mean zero. *)
Theorem C73_square : forall side s, (2 <= side)%nat -> 0 < s -> let n := (4 * (side - 1))%nat in
  shape (square side s) n s /\
  (forall i, (i < n)%nat -> exists p, coord (g_nodes (square side s)) i = Some p /\
    exists p0, coord (g_nodes (square side s)) 0 = Some p0 /\
      fst p - fst p0 = s * IZR (fst (boundary (Z.of_nat (side - 1)) (Z.of_nat i))) /\ snd p - snd p0 = s * IZR (snd (boundary (Z.of_nat (side - 1)) (Z.of_nat i)))) /\
  fold_right Rplus 0 (map (fun e => fst (snd e)) (g_nodes (square side s))) = 0 /\ fold_right Rplus 0 (map (fun e => snd (snd e)) (g_nodes (square side s))) = 0.
Proof.
  intros side s Hside Hs n. set (m := (side - 1)%nat). assert (Hm : (1 <= m)%nat) by lia.
  set (pts := map (boundary_point m) (seq 0 n)). set (c := (rmean (map fst pts), rmean (map snd pts))). set (l := map (fun p => (fst p - fst c, snd p - snd c)) pts : list point).
  assert (Ll : @length point l = n) by (unfold l, pts; rewrite !map_length; apply seq_length).
  assert (Es : S m = side) by lia. pose proof (square_points m Hm) as W. rewrite Es in W. change (4 * m)%nat with n in W.
  assert (G : gen_points side = l). { unfold gen_points. cbv zeta. fold n. rewrite W. reflexivity. }
  assert (EQ : square side s = Register_graph (Graph (enumerate 0 l) (ring_edges n)) (Some s)). { unfold square. fold n. rewrite G, <- Ll at 1. rewrite combine_enum. reflexivity. }
  assert (Nl : forall i, (i < n)%nat -> @nth_error point l i = Some (fst (boundary_point m i) - fst c, snd (boundary_point m i) - snd c)).
  { intros i Hi. unfold l, pts. rewrite map_map, nth_error_map, (nth_error_nth' (seq 0 n) 0%nat) by (rewrite seq_length; exact Hi). rewrite seq_nth by exact Hi. reflexivity. }
  assert (lt : forall i p, @nth_error point l i = Some p -> (i < n)%nat) by (intros i p H; rewrite <- Ll; apply nth_error_Some; rewrite H; discriminate).
  set (N2 := fun i j : nat => let dx := (fst (boundary (Z.of_nat m) (Z.of_nat i)) - fst (boundary (Z.of_nat m) (Z.of_nat j)))%Z in let dy := (snd (boundary (Z.of_nat m) (Z.of_nat i)) - snd (boundary (Z.of_nat m) (Z.of_nat j)))%Z in (dx * dx + dy * dy)%Z).
  assert (F : forall i j, (i < j < n)%nat -> (1 <= N2 i j)%Z /\ (N2 i j = 1%Z <-> j = S i \/ (i = 0%nat /\ j = (n - 1)%nat))).
  { intros i j (L1 & L2). destruct (boundary_far (Z.of_nat m) (Z.of_nat i) (Z.of_nat j)) as (A & B); [lia|lia|unfold n in L2; fold m in L2; lia|]. fold (N2 i j) in A, B. split; [exact A|]. rewrite B. unfold n. fold m. lia. }
  destruct (shape_of l (ring_edges n) 1 (fun i j => sqrt (IZR (N2 i j))) s) as (S1 & C1); [lra|exact Hs| | | | |].
  - intros i j p q L Hi Hj. pose proof (lt i p Hi). pose proof (lt j q Hj). rewrite (Nl i) in Hi by assumption. rewrite (Nl j) in Hj by assumption. injection Hi as <-. injection Hj as <-.
    transitivity (dist (boundary_point m i) (boundary_point m j)); [exact (dist_shift (boundary_point m i) (boundary_point m j) c)|]. unfold boundary_point. rewrite dist_Z. unfold N2. ring.
  - rewrite Ll. intros i j L. rewrite <- sqrt_1. apply sqrt_le_1_alt. apply IZR_le. apply (F i j L).
  - rewrite Ll. intros i j. rewrite ring_in. split; intros (L & Q); (split; [exact L|]).
    + apply (F i j L) in Q. rewrite Q. apply sqrt_1.
    + apply (F i j L). apply eq_IZR. rewrite <- sqrt_1 in Q. apply sqrt_inj in Q; [exact Q| |lra]. apply IZR_le. pose proof (proj1 (F i j L)). lia.
  - intros E. assert (I : In (0, 1)%nat (ring_edges n)) by (apply ring_in; unfold n; lia). rewrite E in I. destruct I.
  - rewrite EQ. rewrite Ll in S1. split; [exact S1|]. split.
    + intros i Hi. eexists. split; [apply (C1 i), Nl, Hi|]. eexists. split; [apply (C1 0%nat), Nl; unfold n; lia|]. cbn [fst snd]. fold m.
      assert (B0 : boundary_point m 0 = (0, 0)). { unfold boundary_point, boundary. destruct (Z.leb_spec (Z.of_nat 0) (Z.of_nat m)); [reflexivity|lia]. }
      rewrite B0. unfold boundary_point. cbn [fst snd]. split; field.
    + assert (Sum : forall (f : point -> R), (forall p k, f (fst p * k, snd p * k) = f p * k) -> fold_right Rplus 0 (map f l) = 0 ->
        fold_right Rplus 0 (map (fun e : nat * point => f (snd e)) (g_nodes (Register_graph (Graph (enumerate 0 l) (ring_edges n)) (Some s)))) = 0).
      { intros f Hf Z. unfold Register_graph, Register_init. cbn [g_nodes].
        assert (En : forall k, map (fun e : nat * point => f (snd e)) (enumerate k l) = map f l) by (clear; induction l as [|x l IH]; intros k; cbn; [reflexivity|rewrite IH; reflexivity]).
        destruct (Req_EM_T _ 0); [rewrite En; exact Z|]. unfold scale_node_positions. rewrite map_map. cbn [snd]. set (k := s / _).
        rewrite (map_ext _ (fun e : nat * point => f (snd e) * k)) by (intros e; apply Hf).
        transitivity (fold_right Rplus 0 (map (fun e : nat * point => f (snd e)) (enumerate 0 l)) * k); [|rewrite En, Z; ring].
        generalize (enumerate 0 l) as el. clearbody k. clear. intros el. induction el as [|x el IH]; cbn [map fold_right]; [ring|rewrite IH; ring]. }
      assert (Mean : forall (xs : list R), xs <> [] -> fold_right Rplus 0 (map (fun x => x - rmean xs) xs) = 0).
      { intros xs NE. unfold rmean. set (t := fold_right Rplus 0 xs). transitivity (t - INR (length xs) * (t / INR (length xs))).
        - unfold t at 2. generalize (t / INR (length xs)) as u. clear. intros u. induction xs as [|x xs IH]; cbn [map fold_right length]; [cbn; ring|]. rewrite IH, S_INR. ring.
        - field. destruct xs; [congruence|]. cbn [length]. rewrite S_INR. pose proof (pos_INR (length xs)). lra. }
      assert (Pne : pts <> []) by (unfold pts, n; fold m; destruct (4 * m)%nat eqn:E0; [lia|discriminate]).
      split.
      * apply (Sum fst); [intros; reflexivity|]. unfold l. rewrite map_map. cbn [fst]. unfold c. cbn [fst]. rewrite <- (map_map fst (fun x => x - rmean (map fst pts))). apply Mean. destruct pts; [congruence|discriminate].
      * apply (Sum snd); [intros; reflexivity|]. unfold l. rewrite map_map. cbn [snd]. unfold c. cbn [snd]. rewrite <- (map_map snd (fun x => x - rmean (map snd pts))). apply Mean. destruct pts; [congruence|discriminate].
Qed.
(** A square with one qubit on its side has no qubit at all. *)
Theorem C73_square_one_refuted : forall s, g_nodes (square 1 s) = [] /\ g_edges (square 1 s) = [].
Proof.
  intros s. unfold square, Register_graph. cbn [g_nodes g_edges Nat.sub Nat.mul seq combine]. split; [|reflexivity]. unfold Register_init. destruct (Req_EM_T _ _) as [_|N]; [reflexivity|]. reflexivity.
Qed.

(** ** Circles *)
(** networkx's [circular_layout]: a regular polygon with some centre and a positive radius. *)
Definition polygon (layout : nat -> nat -> point) : Prop :=
  forall n, (2 <= n)%nat -> exists cx cy r, 0 < r /\ forall i, (i < n)%nat -> layout n i = (cx + r * cos (2 * PI * INR i / INR n), cy + r * sin (2 * PI * INR i / INR n)).
Lemma chord cx cy r a b : 0 < r -> dist (cx + r * cos (2 * a), cy + r * sin (2 * a)) (cx + r * cos (2 * b), cy + r * sin (2 * b)) = 2 * r * Rabs (sin (b - a)).
Proof.
  intros Hr. unfold dist. cbn [fst snd].
  replace ((cx + r * cos (2 * a) - (cx + r * cos (2 * b))) ^ 2 + (cy + r * sin (2 * a) - (cy + r * sin (2 * b))) ^ 2)
    with ((2 * r * sin (b - a)) * (2 * r * sin (b - a))).
  - change (sqrt (Rsqr (2 * r * sin (b - a))) = 2 * r * Rabs (sin (b - a))). rewrite sqrt_Rsqr_abs, Rabs_mult, (Rabs_pos_eq (2 * r)) by lra. reflexivity.
  - assert (E : cos (2 * b - 2 * a) = 1 - 2 * (sin (b - a) * sin (b - a))) by (replace (2 * b - 2 * a) with (2 * (b - a)) by ring; rewrite cos_2a_sin; ring).
    rewrite cos_minus in E. pose proof (sin2_cos2 (2 * a)) as A. pose proof (sin2_cos2 (2 * b)) as B. unfold Rsqr in A, B.
    transitivity (r ^ 2 * (4 * (sin (b - a) * sin (b - a)))); [ring|].
    transitivity (r ^ 2 * ((sin (2 * a) * sin (2 * a) + cos (2 * a) * cos (2 * a)) + (sin (2 * b) * sin (2 * b) + cos (2 * b) * cos (2 * b)) - 2 * (cos (2 * b) * cos (2 * a) + sin (2 * b) * sin (2 * a)))); [rewrite A, B, E; ring|ring].
Qed.
Lemma sin_min n d : (2 <= n)%nat -> (1 <= d <= n - 1)%nat ->
  0 < sin (PI / INR n) /\ sin (PI / INR n) <= sin (PI * INR d / INR n) /\ (sin (PI * INR d / INR n) = sin (PI / INR n) <-> d = 1%nat \/ d = (n - 1)%nat).
Proof.
  intros Hn Hd. pose proof PI_RGT_0 as HP. assert (N0 : 2 <= INR n) by (change 2 with (INR 2); apply le_INR; lia).
  assert (D1 : 1 <= INR d) by (change 1 with (INR 1); apply le_INR; lia). assert (D2 : INR d <= INR n - 1) by (change 1 with (INR 1); rewrite <- (minus_INR n 1) by lia; apply le_INR; lia).
  assert (U : PI / INR n <= PI / 2) by (apply Rmult_le_compat_l; [lra|]; apply Rinv_le_contravar; lra).
  assert (U0 : 0 < PI / INR n) by (apply Rdiv_lt_0_compat; lra).
  assert (S0 : 0 < sin (PI / INR n)) by (apply sin_gt_0; lra).
  assert (K : forall x, 1 <= x -> PI * x / INR n <= PI / 2 -> sin (PI / INR n) <= sin (PI * x / INR n) /\ (sin (PI * x / INR n) = sin (PI / INR n) -> x = 1)).
  { intros x Hx Hx2. assert (E : PI * x / INR n = PI / INR n * x) by (field; lra). assert (L : PI / INR n <= PI * x / INR n) by (rewrite E; nra). split.
    - apply sin_incr_1; lra.
    - intros Q. destruct (Rle_lt_or_eq_dec 1 x Hx) as [X|X]; [|lra]. exfalso. assert (L' : PI / INR n < PI * x / INR n) by (rewrite E; nra).
      assert (sin (PI / INR n) < sin (PI * x / INR n)) by (apply sin_increasing_1; lra). lra. }
  split; [exact S0|]. destruct (Rle_dec (PI * INR d / INR n) (PI / 2)) as [L|L].
  - destruct (K (INR d) D1 L) as (K1 & K2). split; [exact K1|]. split.
    + intros Q. left. apply INR_eq. rewrite (K2 Q). reflexivity.
    + intros [-> | ->]; [cbn; f_equal; field; lra|]. rewrite minus_INR by lia. cbn [INR]. replace (PI * (INR n - 1) / INR n) with (PI - PI / INR n) by (field; lra). rewrite sin_PI_x. reflexivity.
  - assert (R : sin (PI * INR d / INR n) = sin (PI * (INR n - INR d) / INR n)) by (replace (PI * INR d / INR n) with (PI - PI * (INR n - INR d) / INR n) by (field; lra); apply sin_PI_x).
    assert (L2 : PI * (INR n - INR d) / INR n <= PI / 2). { replace (PI * (INR n - INR d) / INR n) with (PI - PI * INR d / INR n) by (field; lra). lra. }
    destruct (K (INR n - INR d) ltac:(lra) L2) as (K1 & K2). rewrite R. split; [exact K1|]. split.
    + intros Q. right. specialize (K2 Q). apply INR_eq. rewrite minus_INR by lia. cbn [INR]. lra.
    + intros [-> | ->].
      * cbn [INR]. replace (PI * (INR n - 1) / INR n) with (PI - PI / INR n) by (field; lra). apply sin_PI_x.
      * rewrite minus_INR by lia. cbn [INR]. f_equal. field. lra.
Qed.
(** [Register.circle]: neighbours on the ring are at the spacing, and qubits i and j at s sin(pi |i-j| / n) / sin(pi / n). *)
Theorem C73_circle : forall layout n s, polygon layout -> (2 <= n)%nat -> 0 < s ->
  shape (circle layout n s) n s /\
  forall i j, (i < j < n)%nat -> pair_dist (g_nodes (circle layout n s)) (i, j) = s * (sin (PI * INR (j - i) / INR n) / sin (PI / INR n)).
Proof.
  intros layout n s Hp Hn Hs. destruct (Hp n Hn) as (cx & cy & r & Hr & HL). unfold circle. rewrite (map_enum (layout n) n 0). set (l := map (layout n) (seq 0 n) : list point).
  assert (Ll : @length point l = n) by (unfold l; rewrite map_length; apply seq_length).
  assert (Nl : forall i, (i < n)%nat -> @nth_error point l i = Some (layout n i)).
  { intros i Hi. unfold l. rewrite nth_error_map, (nth_error_nth' (seq 0 n) 0%nat) by (rewrite seq_length; exact Hi). rewrite seq_nth by exact Hi. reflexivity. }
  assert (lt : forall i p, @nth_error point l i = Some p -> (i < n)%nat) by (intros i p H; rewrite <- Ll; apply nth_error_Some; rewrite H; discriminate).
  assert (S0 : 0 < sin (PI / INR n)) by (apply (sin_min n 1); lia). assert (N0 : 0 < INR n) by (apply lt_0_INR; lia).
  set (D := fun i j : nat => sin (PI * INR (j - i) / INR n) / sin (PI / INR n)). assert (Hk : 0 < 2 * r * sin (PI / INR n)) by nra.
  assert (HD : forall i j p q, (i < j)%nat -> @nth_error point l i = Some p -> @nth_error point l j = Some q -> dist p q = 2 * r * sin (PI / INR n) * D i j).
  { intros i j p q L Hi Hj. pose proof (lt i p Hi) as Li. pose proof (lt j q Hj) as Lj. rewrite (Nl i Li) in Hi. rewrite (Nl j Lj) in Hj. injection Hi as <-. injection Hj as <-. rewrite (HL i Li), (HL j Lj).
    replace (2 * PI * INR i / INR n) with (2 * (PI * INR i / INR n)) by (field; lra). replace (2 * PI * INR j / INR n) with (2 * (PI * INR j / INR n)) by (field; lra). rewrite chord by exact Hr.
    replace (PI * INR j / INR n - PI * INR i / INR n) with (PI * INR (j - i) / INR n) by (rewrite minus_INR by lia; field; lra).
    destruct (sin_min n (j - i) Hn ltac:(lia)) as (_ & M & _). rewrite Rabs_pos_eq by lra. unfold D. field. lra. }
  destruct (shape_of l (ring_edges n) (2 * r * sin (PI / INR n)) D s Hk Hs HD) as (S1 & C1).
  - rewrite Ll. intros i j L. destruct (sin_min n (j - i) Hn ltac:(lia)) as (_ & M & _). unfold D. apply Rmult_le_reg_r with (sin (PI / INR n)); [exact S0|]. unfold Rdiv. rewrite Rmult_assoc, Rinv_l by lra. lra.
  - rewrite Ll. intros i j. rewrite ring_in. split; intros (L & Q); (split; [exact L|]); destruct (sin_min n (j - i) Hn ltac:(lia)) as (_ & _ & M).
    + assert (E : sin (PI * INR (j - i) / INR n) = sin (PI / INR n)) by (apply M; lia). unfold D. rewrite E. field. lra.
    + assert (E : sin (PI * INR (j - i) / INR n) = sin (PI / INR n)). { unfold D in Q. apply Rmult_eq_reg_r with (/ sin (PI / INR n)); [|apply Rinv_neq_0_compat; lra]. rewrite Rinv_r by lra. exact Q. } apply M in E. lia.
  - intros E. assert (I : In (0, 1)%nat (ring_edges n)) by (apply ring_in; lia). rewrite E in I. destruct I.
  - rewrite Ll in S1. split; [exact S1|]. intros i j (L & Lj). unfold pair_dist. cbn [fst snd].
    rewrite (C1 i (layout n i) (Nl i ltac:(lia))), (C1 j (layout n j) (Nl j ltac:(lia))). set (k := 2 * r * sin (PI / INR n)) in *.
    assert (Sk : 0 < s / k) by (apply Rdiv_lt_0_compat; lra).
    pose proof (dist_scale (s / k) (layout n i) (layout n j)) as DS. rewrite Rabs_pos_eq in DS by lra.
    transitivity (s / k * dist (layout n i) (layout n j)); [rewrite <- DS; reflexivity|]. rewrite (HD i j _ _ L (Nl i ltac:(lia)) (Nl j ltac:(lia))). fold k. fold (D i j). field. lra.
Qed.

(** ** Rectangular lattices *)
Lemma prod_nth {A B} (l1 : list A) (l2 : list B) : forall i j a b, nth_error l1 i = Some a -> nth_error l2 j = Some b -> nth_error (list_prod l1 l2) (i * length l2 + j) = Some (a, b).
Proof.
  induction l1 as [|x l1 IH]; intros i j a b Hi Hj; [destruct i; discriminate|]. assert (Lj : (j < length l2)%nat) by (apply nth_error_Some; rewrite Hj; discriminate).
  cbn [list_prod]. destruct i as [|i]; cbn [nth_error] in Hi.
  - injection Hi as ->. cbn [Nat.mul]. rewrite Nat.add_0_l, nth_error_app1 by (rewrite map_length; exact Lj). rewrite nth_error_map, Hj. reflexivity.
  - rewrite nth_error_app2 by (rewrite map_length; lia). rewrite map_length. replace (S i * length l2 + j - length l2)%nat with (i * length l2 + j)%nat by lia. apply IH; assumption.
Qed.
Lemma seq_nth_error n i : (i < n)%nat -> nth_error (seq 0 n) i = Some i.
Proof. intros H. rewrite (nth_error_nth' (seq 0 n) 0%nat) by (rewrite seq_length; exact H). rewrite seq_nth by exact H. reflexivity. Qed.
Lemma split_row r c k : (k < c * r)%nat -> exists i j, (k = i * r + j)%nat /\ (i < c)%nat /\ (j < r)%nat.
Proof.
  intros H. assert (R : r <> 0%nat) by (intros ->; lia). exists (k / r)%nat, (k mod r)%nat. pose proof (Nat.div_mod k r R). pose proof (Nat.mod_upper_bound k r R). split; [lia|]. split; [|assumption].
  apply Nat.div_lt_upper_bound; lia.
Qed.
Lemma grid_in r c k k' : In (k, k') (grid_edges r c) <->
  (exists i j, k = (i * r + j)%nat /\ k' = (S i * r + j)%nat /\ (S i < c)%nat /\ (j < r)%nat) \/ (exists i j, k = (i * r + j)%nat /\ k' = (i * r + S j)%nat /\ (i < c)%nat /\ (S j < r)%nat).
Proof.
  unfold grid_edges. rewrite in_app_iff, !in_map_iff. split.
  - intros [((i, j) & E & I)|((i, j) & E & I)]; cbn [fst snd] in E; injection E as <- <-; apply in_prod_iff in I as (I & J); apply in_seq in I, J; [left|right]; exists i, j; repeat split; lia.
  - intros [(i & j & -> & -> & I & J)|(i & j & -> & -> & I & J)]; [left|right]; exists (i, j); (split; [reflexivity|]); apply in_prod_iff; split; apply in_seq; lia.
Qed.
Lemma row_unique r i j i' j' : (j < r)%nat -> (j' < r)%nat -> (i * r + j = i' * r + j')%nat -> i = i' /\ j = j'.
Proof. intros H H' E. assert (i = i') by nia. subst. split; [reflexivity|lia]. Qed.
Lemma sq_one (x y : Z) : (x * x + y * y = 1 <-> (x = 0 /\ (y = 1 \/ y = -1)) \/ (y = 0 /\ (x = 1 \/ x = -1)))%Z.
Proof. split; intros; nia. Qed.
(** [Register.rectangular_lattice]: qubit i * row + j is at (s i, s j), and exactly the neighbours in a row or a column are joined. *)
Theorem C73_rectangular : forall row col s, (2 <= row * col)%nat -> 0 < s ->
  shape (rectangular row col s) (col * row) s /\
  forall i j, (i < col)%nat -> (j < row)%nat -> coord (g_nodes (rectangular row col s)) (i * row + j) = Some (s * INR i, s * INR j).
Proof.
  intros row col s Hn Hs. set (l := map (fun ij => (INR (fst ij), INR (snd ij))) (list_prod (seq 0 col) (seq 0 row)) : list point).
  assert (EQ : rectangular row col s = Register_graph (Graph (enumerate 0 l) (grid_edges row col)) (Some s)) by reflexivity. rewrite EQ.
  assert (Ll : @length point l = (col * row)%nat) by (unfold l; rewrite map_length, prod_length, !seq_length; reflexivity).
  assert (Nl : forall i j, (i < col)%nat -> (j < row)%nat -> @nth_error point l (i * row + j) = Some (INR i, INR j)).
  { intros i j Hi Hj. unfold l. rewrite nth_error_map. pose proof (prod_nth (seq 0 col) (seq 0 row) i j i j (seq_nth_error col i Hi) (seq_nth_error row j Hj)) as P. rewrite seq_length in P. rewrite P. reflexivity. }
  set (N2 := fun k k' : nat => let dx := (Z.of_nat (k / row) - Z.of_nat (k' / row))%Z in let dy := (Z.of_nat (k mod row) - Z.of_nat (k' mod row))%Z in (dx * dx + dy * dy)%Z).
  assert (R0 : row <> 0%nat) by (intros ->; lia).
  assert (DM : forall i j, (j < row)%nat -> ((i * row + j) / row = i)%nat /\ ((i * row + j) mod row = j)%nat).
  { intros i j Hj. split; [symmetry; apply (Nat.div_unique _ _ i j); lia|symmetry; apply (Nat.mod_unique _ _ i j); lia]. }
  assert (F : forall i j i' j', (j < row)%nat -> (j' < row)%nat -> N2 (i * row + j)%nat (i' * row + j')%nat = ((Z.of_nat i - Z.of_nat i') * (Z.of_nat i - Z.of_nat i') + (Z.of_nat j - Z.of_nat j') * (Z.of_nat j - Z.of_nat j'))%Z).
  { intros i j i' j' Hj Hj'. unfold N2. destruct (DM i j Hj) as (-> & ->). destruct (DM i' j' Hj') as (-> & ->). reflexivity. }
  assert (G1 : forall k k', (k < k' < col * row)%nat -> (1 <= N2 k k')%Z).
  { intros k k' (L & L'). destruct (split_row row col k ltac:(lia)) as (i & j & -> & Hi & Hj). destruct (split_row row col k' L') as (i' & j' & -> & Hi' & Hj'). rewrite F by assumption.
    assert (NE : ~ (i = i' /\ j = j')) by (intros (-> & ->); lia). assert (Q : (Z.of_nat i - Z.of_nat i' <> 0 \/ Z.of_nat j - Z.of_nat j' <> 0)%Z) by lia. revert Q. clear.
    generalize (Z.of_nat i - Z.of_nat i')%Z, (Z.of_nat j - Z.of_nat j')%Z. intros x y Q. nia. }
  destruct (shape_of l (grid_edges row col) 1 (fun i j => sqrt (IZR (N2 i j))) s) as (S1 & C1); [lra|exact Hs| | | | |].
  - intros k k' p q L Hk Hk'. assert (Lk' : (k' < col * row)%nat) by (rewrite <- Ll; apply nth_error_Some; rewrite Hk'; discriminate).
    destruct (split_row row col k ltac:(lia)) as (i & j & -> & Hi & Hj). destruct (split_row row col k' Lk') as (i' & j' & -> & Hi' & Hj').
    rewrite (Nl i j Hi Hj) in Hk. rewrite (Nl i' j' Hi' Hj') in Hk'. injection Hk as <-. injection Hk' as <-. rewrite F by assumption. rewrite !INR_IZR_INZ, dist_Z. ring.
  - rewrite Ll. intros i j L. rewrite <- sqrt_1. apply sqrt_le_1_alt. apply IZR_le. apply (G1 i j L).
  - rewrite Ll. intros k k'. rewrite grid_in.
    assert (Q1 : forall a b, (a < b < col * row)%nat -> (sqrt (IZR (N2 a b)) = 1 <-> N2 a b = 1%Z)).
    { intros a b L. pose proof (G1 a b L). split; [|intros ->; apply sqrt_1]. intros Q. apply eq_IZR. rewrite <- sqrt_1 in Q. apply sqrt_inj in Q; [exact Q|apply IZR_le; lia|lra]. }
    split.
    + intros [(i & j & -> & -> & I & J)|(i & j & -> & -> & I & J)].
      * assert (B : (i * row + j < S i * row + j < col * row)%nat) by nia. split; [exact B|]. apply Q1; [exact B|]. rewrite F by assumption. lia.
      * assert (B : (i * row + j < i * row + S j < col * row)%nat) by nia. split; [exact B|]. apply Q1; [exact B|]. rewrite F by lia. lia.
    + intros (B & Q). apply Q1 in Q; [|exact B]. destruct (split_row row col k ltac:(lia)) as (i & j & -> & Hi & Hj). destruct (split_row row col k' ltac:(lia)) as (i' & j' & -> & Hi' & Hj').
      rewrite F in Q by assumption. apply sq_one in Q. destruct Q as [(A & [C|C])|(A & [C|C])].
      * exfalso. assert (i = i') by lia. subst i'. lia.
      * right. exists i, j. assert (i = i') by lia. subst i'. repeat split; lia.
      * exfalso. assert (j = j') by lia. assert (i = S i') by lia. subst. nia.
      * left. exists i, j. assert (j = j') by lia. assert (i' = S i) by lia. subst. repeat split; lia.
  - intros E. assert (I : exists e, In e (grid_edges row col)).
    { destruct (le_lt_dec 2 row) as [L|L].
      - exists (0 * row + 0, 0 * row + 1)%nat. apply grid_in. right. exists 0%nat, 0%nat. repeat split; nia.
      - exists (0 * row + 0, 1 * row + 0)%nat. apply grid_in. left. exists 0%nat, 0%nat. repeat split; nia. }
    destruct I as (e & I). rewrite E in I. destruct I.
  - rewrite Ll in S1. split; [exact S1|]. intros i j Hi Hj. eapply eq_trans; [apply C1, Nl; assumption|]. cbn [fst snd]. do 2 f_equal; field.
Qed.

(** ** Sharing *)
(** Two registers made from one graph object: the second one's spacing is the spacing of both. *)
Theorem C73_shared_graph_refuted : forall h a s1 s2, 0 < s1 -> 0 < s2 -> s1 <> s2 -> 0 < min_distance (g_nodes (cells h a)) ->
  let h1 := Register_new h a (Some s1) in let h2 := Register_new h1 a (Some s2) in
  min_distance (g_nodes (cells h1 a)) = s1 /\ min_distance (g_nodes (cells h2 a)) = s2.
Proof.
  intros h a s1 s2 H1 H2 _ H. cbn zeta. unfold Register_new, store. cbn [cells]. rewrite !Nat.eqb_refl. unfold Register_graph. cbn [g_nodes].
  assert (E : min_distance (Register_init (g_nodes (cells h a)) (Some s1)) = s1) by (apply C38_spacing; lra). split; [exact E|]. apply C38_spacing; [exact H2|]. rewrite E. lra.
Qed.
(** Every other graph is untouched. *)
Theorem C73_new_frame : forall h a spacing b, b <> a -> cells (Register_new h a spacing) b = cells h b.
Proof. intros h a sp b H. unfold Register_new, store. cbn [cells]. destruct (Nat.eqb_spec b a); [contradiction|reflexivity]. Qed.
(** Without a spacing the graph is kept. *)
Theorem C73_new_none : forall h a b, cells (Register_new h a None) b = cells h b.
Proof. intros h a b. unfold Register_new, store, Register_graph, Register_init. cbn [cells]. destruct (Nat.eqb_spec b a) as [->|]; [destruct (cells h a); reflexivity|reflexivity]. Qed.
(** [rescale_coords] leaves every existing register as it was, and gives a new one with the same edges and all positions multiplied. *)
Theorem C73_rescale : forall h a k, let '(b, h') := rescale h a k in
  (forall x, (x < next h)%nat -> cells h' x = cells h x) /\ b = next h /\ (next h < next h')%nat /\
  g_edges (cells h' b) = g_edges (cells h a) /\ support (g_nodes (cells h' b)) = support (g_nodes (cells h a)) /\
  (forall i, coord (g_nodes (cells h' b)) i = match coord (g_nodes (cells h a)) i with Some p => Some (fst p * k, snd p * k) | None => None end).
Proof.
  intros h a k. unfold rescale. split; [|split; [reflexivity|split; [cbn; lia|]]].
  - intros x Hx. rewrite C73_new_none. cbn [cells]. destruct (Nat.eqb_spec x (next h)); [lia|reflexivity].
  - rewrite C73_new_none. cbn [cells]. rewrite Nat.eqb_refl. cbn [g_nodes g_edges].
    assert (E : scale_node_positions (g_nodes (cells h a)) 1 k = scaled k (g_nodes (cells h a))).
    { unfold scaled, scale_node_positions. apply map_ext. intros (i, p). cbn [fst snd]. do 2 f_equal; field. }
    rewrite E. split; [reflexivity|]. split; [apply support_scaled|]. intros i. rewrite coord_scaled. reflexivity.
Qed.

(** ** Examples *)
Example polygon_exists : polygon (fun n i => (0 + 1 * cos (2 * PI * INR i / INR n), 0 + 1 * sin (2 * PI * INR i / INR n))).
Proof. intros n Hn. exists 0, 0, 1. split; [lra|]. intros; reflexivity. Qed.
(** Three qubits on a side: eight qubits, joined in a ring. *)
Example square_three : g_edges (square 3 8) = [(0, 1); (1, 2); (2, 3); (3, 4); (4, 5); (5, 6); (6, 7); (0, 7)]%nat /\ shape (square 3 8) 8 8.
Proof. split; [reflexivity|]. apply (C73_square 3 8); [lia|lra]. Qed.
Example rectangle_edges : g_edges (rectangular 2 3 8) = [(0, 2); (1, 3); (2, 4); (3, 5); (0, 1); (2, 3); (4, 5)]%nat.
Proof. reflexivity. Qed.
Example shared : let h := Heap (fun _ => Graph (line_graph 3) (path_edges 3)) 1 in 0 < min_distance (g_nodes (cells h 0)).
Proof. cbn [cells g_nodes]. pose proof (proj1 (C73_line 3 1 ltac:(lia) ltac:(lra))) as (_ & M & _). unfold line_register, Register_graph in M. cbn [g_nodes] in M.
  destruct (Req_dec (min_distance (line_graph 3)) 0) as [Z|NZ].
  - unfold Register_init in M. destruct (Req_EM_T (min_distance (line_graph 3)) 0); [lra|contradiction].
  - destruct (C38_min_distance (line_graph 3)) as (_ & M2 & _). { unfold wf, line_graph. rewrite map_enum. apply enum_wf. }
    destruct (M2 ltac:(cbn; lia)) as (i & j & p & q & _ & _ & _ & E). rewrite E in *. assert (0 <= dist p q) by (unfold dist; apply sqrt_pos). lra.
Qed.

Print Assumptions C73_line.
Print Assumptions C73_square.
Print Assumptions C73_square_one_refuted.
Print Assumptions C73_circle.
Print Assumptions C73_rectangular.
Print Assumptions C73_shared_graph_refuted.
Print Assumptions C73_new_frame.
Print Assumptions C73_new_none.
Print Assumptions C73_rescale.
