(** C89: where the constructors of registers put the qubits. *)
From Coq Require Import Reals ZArith List Arith Bool Lra Lia FinFun.
From Verif Require Import M_Register M_Lattice P_Register.
Import ListNotations.
Open Scope R_scope.

Lemma support_init g sp : support (Register_init g sp) = support g.
Proof. unfold Register_init. destruct sp as [sp|]; [|reflexivity]. destruct (Req_EM_T _ 0); [reflexivity|]. apply support_scaled. Qed.
(** ** Coordinates given one by one *)
(** The i-th coordinates are those of qubit i; a spacing multiplies all of them by one positive number. *)
Theorem C89_coordinates : forall coords, support (from_coordinates coords None) = seq 0 (length coords) /\
  (forall i, coord (from_coordinates coords None) i = nth_error coords i) /\
  forall s, 0 < s -> support (from_coordinates coords (Some s)) = seq 0 (length coords) /\
    exists k, 0 < k /\ forall i, coord (from_coordinates coords (Some s)) i = option_map (fun p => (fst p * k, snd p * k)) (nth_error coords i).
Proof.
  intros coords. assert (W : wf (enumerate 0 coords)) by (unfold wf, support; rewrite enum_fst; apply seq_NoDup).
  assert (C : forall i, coord (enumerate 0 coords) i = nth_error coords i).
  { intros i. destruct (nth_error coords i) as [p|] eqn:E.
    - apply coord_in; [exact W|]. apply enum_nth. rewrite Nat.sub_0_r. split; [lia|exact E].
    - destruct (coord (enumerate 0 coords) i) as [p|] eqn:F; [|reflexivity]. apply coord_some, enum_nth in F as [_ F]. rewrite Nat.sub_0_r in F. congruence. }
  split; [apply enum_fst|]. split; [exact C|]. intros s Hs. unfold from_coordinates, Register_init. destruct (Req_EM_T _ 0) as [_|N].
  - split; [apply enum_fst|]. exists 1. split; [lra|]. intros i. rewrite C. destruct (nth_error coords i) as [[x y]|]; [|reflexivity]. cbn. rewrite !Rmult_1_r. reflexivity.
  - change (scale_node_positions (enumerate 0 coords) (min_distance (enumerate 0 coords)) s) with (scaled (s / min_distance (enumerate 0 coords)) (enumerate 0 coords)).
    split; [rewrite support_scaled; apply enum_fst|]. exists (s / min_distance (enumerate 0 coords)). split; [|intros i; rewrite coord_scaled, C; reflexivity].
    assert (0 <= min_distance (enumerate 0 coords)).
    { destruct (C38_min_distance _ W) as (_ & M & M'). destruct (le_lt_dec 2 (length (enumerate 0 coords))) as [L|L]; [destruct (M L) as (a & b & pa & pb & _ & _ & _ & ->); apply sqrt_pos|rewrite (M' L); lra]. }
    apply Rdiv_lt_0_compat; lra.
Qed.

(** ** Rectangles *)
Lemma rect_nth qc qr i j : (i < qc)%nat -> (j < qr)%nat -> nth_error (list_prod (seq 0 qc) (seq 0 qr)) (i * qr + j) = Some (i, j).
Proof.
  intros Hi Hj. assert (G : forall n a i, (i < n)%nat -> nth_error (list_prod (seq a n) (seq 0 qr)) (i * qr + j) = Some ((a + i)%nat, j)).
  { clear i Hi. induction n as [|n IH]; intros a i Hi; [lia|]. cbn [seq list_prod]. destruct i as [|i].
    - rewrite nth_error_app1 by (rewrite map_length, seq_length; lia). rewrite nth_error_map, (nth_error_nth' _ 0%nat), seq_nth by (rewrite ?seq_length; lia). cbn. rewrite Nat.add_0_r. reflexivity.
    - rewrite nth_error_app2; rewrite map_length, seq_length; [|lia]. replace (S i * qr + j - qr)%nat with (i * qr + j)%nat by lia. rewrite IH by lia. do 2 f_equal. lia. }
  apply (G qc 0%nat i Hi).
Qed.
(** The qubit number i * qubits_row + j sits in column i and row j of the grid. *)
Theorem C89_rectangular : forall qubits_row qubits_col s i j, (2 <= qubits_row * qubits_col)%nat -> 0 < s -> (i < qubits_col)%nat -> (j < qubits_row)%nat ->
  coord (rectangular_lattice qubits_row qubits_col s) (i * qubits_row + j) = Some (INR i * s, INR j * s).
Proof.
  intros qr qc s i j Hn Hs Hi Hj. destruct (C38_rectangular qr qc 1 Hn Rlt_0_1) as [_ M]. unfold rectangular_lattice in *. set (g := enumerate 0 _) in *.
  assert (W : wf g) by (unfold wf, support, g; rewrite enum_fst; apply seq_NoDup).
  assert (G1 : min_distance g = 1).
  { apply Rle_antisym.
    - unfold Register_init in M. destruct (Req_EM_T (min_distance g) 0) as [E|N]; [lra|]. change (scale_node_positions g (min_distance g) 1) with (scaled (1 / min_distance g) g) in M.
      clear M N. destruct (C38_min_distance g W) as (A & _). assert (two : (2 <= qc)%nat /\ (1 <= qr)%nat \/ (1 <= qc)%nat /\ (2 <= qr)%nat) by (destruct qr as [|[|qr]], qc as [|[|qc]]; simpl in Hn; lia).
      assert (I : forall a b, (a < qc)%nat -> (b < qr)%nat -> In ((a * qr + b)%nat, (INR a, INR b)) g) by (intros a b Ha Hb; apply enum_nth; split; [lia|]; rewrite Nat.sub_0_r, nth_error_map, (rect_nth qc qr a b Ha Hb); reflexivity).
      destruct two as [[X Y]|[X Y]].
      + replace 1 with (dist (INR 0, INR 0) (INR 1, INR 0)); [apply (A (0 * qr + 0)%nat (1 * qr + 0)%nat); [apply I; lia|apply I; lia|lia]|]. unfold dist. simpl. replace ((0 - 1) * ((0 - 1) * 1) + (0 - 0) * ((0 - 0) * 1)) with 1 by ring. apply sqrt_1.
      + replace 1 with (dist (INR 0, INR 0) (INR 0, INR 1)); [apply (A (0 * qr + 0)%nat (0 * qr + 1)%nat); [apply I; lia|apply I; lia|lia]|]. unfold dist. simpl. replace ((0 - 0) * ((0 - 0) * 1) + (0 - 1) * ((0 - 1) * 1)) with 1 by ring. apply sqrt_1.
    - destruct (C38_min_distance g W) as (_ & B & _). assert (L : (2 <= length g)%nat) by (replace (length g) with (length (map fst g)) by apply map_length; unfold g; rewrite enum_fst, seq_length, map_length, prod_length, !seq_length; lia).
      destruct (B L) as (a & b & pa & pb & Ha & Hb & Ne & ->). apply enum_nth in Ha as [_ Ha]. apply enum_nth in Hb as [_ Hb]. rewrite Nat.sub_0_r in Ha, Hb. rewrite nth_error_map in Ha, Hb.
      destruct (nth_error (list_prod (seq 0 qc) (seq 0 qr)) a) as [[x y]|] eqn:E1; [|discriminate]. destruct (nth_error (list_prod (seq 0 qc) (seq 0 qr)) b) as [[z w]|] eqn:E2; [|discriminate].
      injection Ha as <-. injection Hb as <-. apply dist_grid. intros E. apply Ne. eapply NoDup_nth_error; [apply prod_nodup; apply seq_NoDup|apply nth_error_Some; rewrite E1; discriminate|]. rewrite E1, E2, E. reflexivity. }
  clear M. unfold Register_init. rewrite G1. destruct (Req_EM_T 1 0); [lra|]. change (scale_node_positions g 1 s) with (scaled (s / 1) g). rewrite coord_scaled.
  rewrite (coord_in g (i * qr + j)%nat (INR i, INR j) W); [cbn [option_map fst snd]; unfold Rdiv; rewrite Rinv_1, Rmult_1_r; reflexivity|].
  apply enum_nth. split; [lia|]. rewrite Nat.sub_0_r, nth_error_map, rect_nth by assumption. reflexivity.
Qed.
(** "qubits_row: Number of qubits in each row": the qubits with the same second coordinate are qubits_col many, not qubits_row. *)
Theorem C89_rows_refuted : forall qubits_row qubits_col s, (2 <= qubits_row * qubits_col)%nat -> 0 < s ->
  exists row, NoDup row /\ length row = qubits_col /\ forall q, In q row <-> exists x, coord (rectangular_lattice qubits_row qubits_col s) q = Some (x, 0).
Proof.
  intros qr qc s Hn Hs. assert (Hr : (0 < qr)%nat) by nia. exists (map (fun i => (i * qr)%nat) (seq 0 qc)). split; [|split; [rewrite map_length; apply seq_length|]].
  - apply Injective_map_NoDup; [intros a b E; nia|apply seq_NoDup].
  - intros q. split.
    + intros H. apply in_map_iff in H as (i & <- & H). apply in_seq in H. exists (INR i * s). replace (i * qr)%nat with (i * qr + 0)%nat by lia. rewrite C89_rectangular by (assumption || lia). cbn. do 2 f_equal. ring.
    + intros (x & H). assert (Q : (q < qc * qr)%nat).
      { destruct (C38_rectangular qr qc s Hn Hs) as [L _]. apply coord_some in H. apply (in_map fst) in H. cbn [fst] in H.
        assert (S : support (rectangular_lattice qr qc s) = seq 0 (qc * qr)).
        { unfold rectangular_lattice. rewrite support_init. unfold support. rewrite enum_fst, map_length, prod_length, !seq_length. reflexivity. }
        change (In q (support (rectangular_lattice qr qc s))) in H.
        rewrite S in H. apply in_seq in H. lia. }
      assert (E : q = (q / qr * qr + q mod qr)%nat) by (pose proof (Nat.div_mod q qr); lia). assert (Hc : (q / qr < qc)%nat) by (apply Nat.div_lt_upper_bound; lia). assert (Hm : (q mod qr < qr)%nat) by (apply Nat.mod_upper_bound; lia).
      rewrite E, C89_rectangular in H by assumption. injection H as _ H. assert (Z0 : INR (q mod qr) = 0) by (apply Rmult_integral in H as [H|H]; [exact H|lra]). apply INR_eq with (m := 0%nat) in Z0.
      apply in_map_iff. exists (q / qr)%nat. split; [lia|]. apply in_seq. lia.
Qed.
Example C89_rectangular_instance : coord (rectangular_lattice 3 2 5) 4 = Some (5, 5).
Proof. change 4%nat with (1 * 3 + 1)%nat. rewrite C89_rectangular by (lia || lra). cbn. do 2 f_equal; ring. Qed.

(** ** Squares *)
(** The way around a square with corners (0, 0) and (-m, m), from the corner (0, 0) upwards. *)
Definition around (m k : nat) : Z * Z :=
  (if Nat.ltb k m then (0, Z.of_nat k)
   else if Nat.ltb k (2 * m) then (- Z.of_nat (k - m), Z.of_nat m)
   else if Nat.ltb k (3 * m) then (- Z.of_nat m, Z.of_nat m - Z.of_nat (k - 2 * m))
   else (- Z.of_nat m + Z.of_nat (k - 3 * m), 0))%Z.
(** It visits each point of the boundary of the square exactly once, and goes from each to a neighbour. *)
Definition boundary (m : nat) (p : Z * Z) : Prop :=
  (- Z.of_nat m <= fst p <= 0 /\ 0 <= snd p <= Z.of_nat m /\ (fst p = 0 \/ fst p = - Z.of_nat m \/ snd p = 0 \/ snd p = Z.of_nat m))%Z.
Lemma around_cases m k : (k < 4 * m)%nat ->
  (exists r, r < m /\ k = r /\ around m k = (0%Z, Z.of_nat r))%nat \/ (exists r, r < m /\ k = m + r /\ around m k = (- Z.of_nat r, Z.of_nat m)%Z)%nat \/
  (exists r, r < m /\ k = 2 * m + r /\ around m k = (- Z.of_nat m, Z.of_nat m - Z.of_nat r)%Z)%nat \/ (exists r, r < m /\ k = 3 * m + r /\ around m k = (- Z.of_nat m + Z.of_nat r, 0)%Z)%nat.
Proof.
  intros H. unfold around. destruct (Nat.ltb_spec k m); [left; exists k; auto|]. destruct (Nat.ltb_spec k (2 * m)); [right; left; exists (k - m)%nat; repeat split; lia|].
  destruct (Nat.ltb_spec k (3 * m)); [right; right; left; exists (k - 2 * m)%nat; repeat split; lia|]. right; right; right. exists (k - 3 * m)%nat. repeat split; lia.
Qed.
Theorem C89_around : forall m, (1 <= m)%nat ->
  (forall p, boundary m p <-> exists k, (k < 4 * m)%nat /\ around m k = p) /\
  (forall j k, (j < 4 * m)%nat -> (k < 4 * m)%nat -> around m j = around m k -> j = k) /\
  forall k, (k < 4 * m)%nat -> let p := around m k in let p' := around m (if Nat.eqb (k + 1) (4 * m) then 0 else k + 1) in (Z.abs (fst p - fst p') + Z.abs (snd p - snd p') = 1)%Z.
Proof.
  intros m Hm. split; [|split].
  - intros [x y]. unfold boundary. cbn [fst snd]. split.
    + intros (A & B & C). destruct (Z.eq_dec x 0) as [->|Nx].
      * destruct (Z.eq_dec y (Z.of_nat m)) as [->|Ny].
        -- exists m. split; [lia|]. unfold around. destruct (Nat.ltb_spec m m); [lia|]. destruct (Nat.ltb_spec m (2 * m)); [|lia]. rewrite Nat.sub_diag. reflexivity.
        -- exists (Z.to_nat y). split; [lia|]. unfold around. destruct (Nat.ltb_spec (Z.to_nat y) m); [|lia]. f_equal. lia.
      * destruct (Z.eq_dec y (Z.of_nat m)) as [->|Ny].
        -- destruct (Z.eq_dec x (- Z.of_nat m)) as [->|Nx'].
           ++ exists (2 * m)%nat. split; [lia|]. unfold around. destruct (Nat.ltb_spec (2 * m) m); [lia|]. destruct (Nat.ltb_spec (2 * m) (2 * m)); [lia|]. destruct (Nat.ltb_spec (2 * m) (3 * m)); [|lia]. f_equal; lia.
           ++ exists (m + Z.to_nat (- x))%nat. split; [lia|]. unfold around. destruct (Nat.ltb_spec (m + Z.to_nat (- x)) m); [lia|]. destruct (Nat.ltb_spec (m + Z.to_nat (- x)) (2 * m)); [|lia]. f_equal; lia.
        -- destruct (Z.eq_dec x (- Z.of_nat m)) as [->|Nx'].
           ++ destruct (Z.eq_dec y 0) as [->|N0].
              ** exists (3 * m)%nat. split; [lia|]. unfold around. destruct (Nat.ltb_spec (3 * m) m); [lia|]. destruct (Nat.ltb_spec (3 * m) (2 * m)); [lia|]. destruct (Nat.ltb_spec (3 * m) (3 * m)); [lia|]. f_equal; lia.
              ** exists (2 * m + Z.to_nat (Z.of_nat m - y))%nat. split; [lia|]. unfold around. set (k := (2 * m + Z.to_nat (Z.of_nat m - y))%nat). destruct (Nat.ltb_spec k m); [lia|]. destruct (Nat.ltb_spec k (2 * m)); [lia|]. destruct (Nat.ltb_spec k (3 * m)); [|lia]. f_equal; lia.
           ++ assert (y = 0)%Z by lia. subst y. exists (3 * m + Z.to_nat (Z.of_nat m + x))%nat. split; [lia|]. unfold around. set (k := (3 * m + Z.to_nat (Z.of_nat m + x))%nat). destruct (Nat.ltb_spec k m); [lia|]. destruct (Nat.ltb_spec k (2 * m)); [lia|]. destruct (Nat.ltb_spec k (3 * m)); [lia|]. f_equal; lia.
    + intros (k & Hk & E). destruct (around_cases m k Hk) as [(r & R & _ & Q)|[(r & R & _ & Q)|[(r & R & _ & Q)|(r & R & _ & Q)]]]; rewrite Q in E; injection E as <- <-; lia.
  - intros j k Hj Hk E. destruct (around_cases m j Hj) as [(r & R & -> & Q)|[(r & R & -> & Q)|[(r & R & -> & Q)|(r & R & -> & Q)]]]; rewrite Q in E; clear Q;
      destruct (around_cases m k Hk) as [(t & T & -> & Q)|[(t & T & -> & Q)|[(t & T & -> & Q)|(t & T & -> & Q)]]]; rewrite Q in E; injection E; lia.
  - intros k Hk. cbv zeta. destruct (Nat.eqb_spec (k + 1) (4 * m)) as [L|L].
    + assert (k = 3 * m + (m - 1))%nat by lia. unfold around. destruct (Nat.ltb_spec k m); [lia|]. destruct (Nat.ltb_spec k (2 * m)); [lia|]. destruct (Nat.ltb_spec k (3 * m)); [lia|]. destruct (Nat.ltb_spec 0 m); [|lia]. cbn [fst snd]. lia.
    + unfold around. destruct (Nat.ltb_spec k m), (Nat.ltb_spec k (2 * m)), (Nat.ltb_spec k (3 * m)), (Nat.ltb_spec (k + 1) m), (Nat.ltb_spec (k + 1) (2 * m)), (Nat.ltb_spec (k + 1) (3 * m)); cbn [fst snd]; lia.
Qed.

Definition heading (m k : nat) : Z * Z := if Nat.ltb k m then (0, 1)%Z else if Nat.ltb k (2 * m) then (-1, 0)%Z else if Nat.ltb k (3 * m) then (0, -1)%Z else (1, 0)%Z.
Lemma walk_around m : (1 <= m)%nat -> forall missing k r a, (k = a * m + r)%nat -> (r < m)%nat -> (k + missing < 4 * m)%nat ->
  walk missing (m + 1) (around m k) (heading m k) (r + 1) = map (around m) (seq (k + 1) missing).
Proof.
  intros Hm. induction missing as [|f IH]; intros k r a Hk Hr Hf; [reflexivity|]. cbn [walk seq map].
  assert (A : (a < 4)%nat) by nia.
  assert (P : (fst (around m k) + fst (heading m k), snd (around m k) + snd (heading m k))%Z = around m (k + 1)).
  { unfold around, heading. destruct (Nat.ltb_spec k m), (Nat.ltb_spec k (2 * m)), (Nat.ltb_spec k (3 * m)), (Nat.ltb_spec (k + 1) m), (Nat.ltb_spec (k + 1) (2 * m)), (Nat.ltb_spec (k + 1) (3 * m)); cbn [fst snd]; f_equal; lia. }
  rewrite P. f_equal. replace (S (k + 1)) with (k + 1 + 1)%nat by lia. destruct (Nat.eq_dec r (m - 1)) as [E|E].
  - replace ((r + 1 + 1) mod (m + 1))%nat with 0%nat by (replace (r + 1 + 1)%nat with (m + 1)%nat by lia; rewrite Nat.mod_same; lia). cbn [Nat.eqb].
    replace (rotate_left (heading m k)) with (heading m (k + 1)); [apply (IH (k + 1)%nat 0%nat (S a)); nia|].
    assert (A3 : (a < 3)%nat) by nia. unfold heading, rotate_left. destruct a as [|[|[|a]]]; [| | |lia].
    + destruct (Nat.ltb_spec k m); [|lia]. destruct (Nat.ltb_spec (k + 1) m); [lia|]. destruct (Nat.ltb_spec (k + 1) (2 * m)); [reflexivity|lia].
    + destruct (Nat.ltb_spec k m); [lia|]. destruct (Nat.ltb_spec k (2 * m)); [|lia]. destruct (Nat.ltb_spec (k + 1) m); [lia|]. destruct (Nat.ltb_spec (k + 1) (2 * m)); [lia|]. destruct (Nat.ltb_spec (k + 1) (3 * m)); [reflexivity|lia].
    + destruct (Nat.ltb_spec k m); [lia|]. destruct (Nat.ltb_spec k (2 * m)); [lia|]. destruct (Nat.ltb_spec k (3 * m)); [|lia]. destruct (Nat.ltb_spec (k + 1) m); [lia|]. destruct (Nat.ltb_spec (k + 1) (2 * m)); [lia|]. destruct (Nat.ltb_spec (k + 1) (3 * m)); [lia|reflexivity].
  - rewrite Nat.mod_small by lia. destruct (Nat.eqb_spec (r + 1 + 1) 0); [lia|].
    replace (heading m k) with (heading m (k + 1)); [apply (IH (k + 1)%nat (r + 1)%nat a); nia|].
    unfold heading. destruct a as [|[|[|[|a]]]]; [| | | |lia]; destruct (Nat.ltb_spec k m), (Nat.ltb_spec k (2 * m)), (Nat.ltb_spec k (3 * m)), (Nat.ltb_spec (k + 1) m), (Nat.ltb_spec (k + 1) (2 * m)), (Nat.ltb_spec (k + 1) (3 * m)); try reflexivity; lia.
Qed.
Lemma square_points_around m : (1 <= m)%nat -> square_points (m + 1) = map (around m) (seq 0 (4 * m)).
Proof.
  intros Hm. unfold square_points, n_points. replace (4 * (m + 1 - 1) - 1)%nat with (4 * m - 1)%nat by lia. replace (seq 0 (4 * m)) with (0%nat :: seq 1 (4 * m - 1)) by (replace (4 * m)%nat with (S (4 * m - 1)) at 2 by lia; reflexivity).
  cbn [map]. replace (around m 0) with (0, 0)%Z by (unfold around; destruct (Nat.ltb_spec 0 m); [reflexivity|lia]). f_equal.
  replace (0, 0)%Z with (around m 0) by (unfold around; destruct (Nat.ltb_spec 0 m); [reflexivity|lia]). replace (0, 1)%Z with (heading m 0) by (unfold heading; destruct (Nat.ltb_spec 0 m); [reflexivity|lia]).
  apply (walk_around m Hm (4 * m - 1) 0 0 0); lia.
Qed.
Lemma sum_centred (f : Z * Z -> R) l : l <> [] -> fold_right Rplus 0 (map (fun p => f p - mean (map f l)) l) = 0.
Proof.
  intros H. unfold mean. set (c := fold_right Rplus 0 (map f l) / INR (length (map f l))).
  assert (G : forall l', fold_right Rplus 0 (map (fun p => f p - c) l') = fold_right Rplus 0 (map f l') - INR (length l') * c).
  { induction l' as [|p l' IH]; [cbn; ring|]. cbn [map fold_right length]. rewrite IH, S_INR. ring. }
  rewrite G. unfold c. rewrite map_length. field. apply not_0_INR. destruct l; [congruence|discriminate].
Qed.
(** The qubits of a square with n of them on a side are numbered along its sides: 4 (n - 1) qubits, each at the given distance from the next, the first
    and the last included, none closer, all centred around the origin. *)
Theorem C89_square : forall qubits_side spacing, (2 <= qubits_side)%nat -> 0 < spacing ->
  let m := (qubits_side - 1)%nat in let r := square qubits_side spacing in
  support r = seq 0 (4 * m) /\ min_distance r = spacing /\
  (exists cx cy, forall k, (k < 4 * m)%nat -> coord r k = Some ((IZR (fst (around m k)) + cx) * spacing, (IZR (snd (around m k)) + cy) * spacing)) /\
  fold_right Rplus 0 (map (fun e => fst (snd e)) r) = 0 /\ fold_right Rplus 0 (map (fun e => snd (snd e)) r) = 0.
Proof.
  intros side sp Hside Hsp m r. assert (Hm : (1 <= m)%nat) by lia. assert (Es : side = (m + 1)%nat) by lia.
  set (pts := map (around m) (seq 0 (4 * m))). assert (Ep : square_points side = pts) by (rewrite Es; apply square_points_around, Hm).
  set (mx := mean (map (fun p : Z * Z => IZR (fst p)) pts)). set (my := mean (map (fun p : Z * Z => IZR (snd p)) pts)).
  assert (En : n_points side = (4 * m)%nat) by (unfold n_points; lia).
  assert (Eg : square_graph side = map (fun k => (k, (IZR (fst (around m k)) - mx, IZR (snd (around m k)) - my))) (seq 0 (4 * m))).
  { unfold square_graph. rewrite Ep, En. unfold centred. fold mx my. unfold pts. rewrite map_map. generalize (seq 0 (4 * m)) as l. induction l as [|k l IH]; [reflexivity|]. cbn [map combine]. rewrite IH. reflexivity. }
  assert (W : wf (square_graph side)) by (rewrite Eg; unfold wf, support; rewrite map_map; cbn [fst]; rewrite map_id; apply seq_NoDup).
  assert (D : forall j k, dist (IZR (fst (around m j)) - mx, IZR (snd (around m j)) - my) (IZR (fst (around m k)) - mx, IZR (snd (around m k)) - my) =
    sqrt (IZR ((fst (around m j) - fst (around m k)) ^ 2 + (snd (around m j) - snd (around m k)) ^ 2))).
  { intros j k. unfold dist. cbn [fst snd]. f_equal. rewrite !Z.pow_2_r, plus_IZR, !mult_IZR, !minus_IZR. ring. }
  assert (M : min_distance (square_graph side) = 1).
  { apply unit_min; [exact W| |].
    - intros a b pa pb Ha Hb Ne. rewrite Eg in Ha, Hb. apply in_map_iff in Ha as (j & Ea & Ha). apply in_map_iff in Hb as (k & Eb & Hb). injection Ea as <- <-. injection Eb as <- <-. apply in_seq in Ha, Hb.
      rewrite D, <- sqrt_1. apply sqrt_le_1_alt. apply IZR_le. assert (around m j <> around m k) by (intros Q; apply Ne; apply (proj1 (proj2 (C89_around m Hm)) j k); [lia|lia|exact Q]).
      destruct (around m j) as [x y], (around m k) as [z w]. cbn [fst snd]. assert (x <> z \/ y <> w) by (destruct (Z.eq_dec x z) as [->|]; [|tauto]; destruct (Z.eq_dec y w) as [->|]; [congruence|tauto]). nia.
    - exists 0%nat, 1%nat. do 2 eexists. rewrite Eg. split; [apply in_map_iff; exists 0%nat; split; [reflexivity|apply in_seq; lia]|]. split; [apply in_map_iff; exists 1%nat; split; [reflexivity|apply in_seq; lia]|]. split; [discriminate|].
      rewrite D. pose proof (proj2 (proj2 (C89_around m Hm)) 0%nat ltac:(lia)) as N. cbv zeta in N. destruct (Nat.eqb_spec (0 + 1) (4 * m)); [lia|]. change (0 + 1)%nat with 1%nat in N.
      replace ((fst (around m 0) - fst (around m 1)) ^ 2 + (snd (around m 0) - snd (around m 1)) ^ 2)%Z with 1%Z; [apply sqrt_1|]. set (u := (fst (around m 0) - fst (around m 1))%Z) in *. set (v := (snd (around m 0) - snd (around m 1))%Z) in *. clearbody u v.
      assert ((u = 0 /\ (v = 1 \/ v = -1)) \/ (v = 0 /\ (u = 1 \/ u = -1)))%Z by lia. nia. }
  assert (Er : r = scaled sp (square_graph side)).
  { unfold r, square, Register_init. rewrite M. destruct (Req_EM_T 1 0); [lra|]. unfold scale_node_positions, scaled. replace (sp / 1) with sp by field. reflexivity. }
  assert (S0 : forall (f : Z * Z -> R) c, c = mean (map f pts) -> fold_right Rplus 0 (map (fun k => (f (around m k) - c) * sp) (seq 0 (4 * m))) = 0).
  { intros f c ->. assert (Z0 := sum_centred f pts ltac:(unfold pts; destruct m; [lia|discriminate])). revert Z0. set (c := mean (map f pts)). unfold pts. rewrite map_map. intros Z0.
    assert (G : forall l, fold_right Rplus 0 (map (fun k => (f (around m k) - c) * sp) l) = fold_right Rplus 0 (map (fun x => f (around m x) - c) l) * sp) by (induction l as [|k l IH]; [cbn; ring|]; cbn [map fold_right]; rewrite IH; ring).
    rewrite G, Z0. ring. }
  split; [rewrite Er, support_scaled, Eg; unfold support; rewrite map_map; cbn [fst]; apply map_id|]. split; [unfold r, square; apply C38_spacing; [exact Hsp|lra]|]. split; [|split].
  - exists (- mx), (- my). intros k Hk. rewrite Er, coord_scaled. rewrite (coord_in _ k (IZR (fst (around m k)) - mx, IZR (snd (around m k)) - my) W); [reflexivity|]. rewrite Eg. apply in_map_iff. exists k. split; [reflexivity|apply in_seq; lia].
  - rewrite Er, Eg. unfold scaled. rewrite !map_map. cbn [fst snd]. apply (S0 (fun p => IZR (fst p)) mx eq_refl).
  - rewrite Er, Eg. unfold scaled. rewrite !map_map. cbn [fst snd]. apply (S0 (fun p => IZR (snd p)) my eq_refl).
Qed.
Example C89_square_instance : support (square 3 2) = [0; 1; 2; 3; 4; 5; 6; 7]%nat /\ square_points 3 = [(0, 0); (0, 1); (0, 2); (-1, 2); (-2, 2); (-2, 1); (-2, 0); (-1, 0)]%Z.
Proof. split; [apply C89_square; [lia|lra]|reflexivity]. Qed.
Print Assumptions C89_coordinates.
Print Assumptions C89_rectangular.
Print Assumptions C89_rows_refuted.
Print Assumptions C89_around.
Print Assumptions C89_square.
