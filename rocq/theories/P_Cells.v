(** C94: triangular and honeycomb lattices. *)
From Coq Require Import Reals List Arith Bool ZArith Lia Lra.
From Verif Require Import M_Register P_Register M_Shapes P_Shapes M_Cells.
Import ListNotations.
Open Scope R_scope.

Lemma ceqb_spec a b : ceqb a b = true <-> a = b.
Proof. destruct a as [i j], b as [k l]. unfold ceqb. cbn [fst snd]. rewrite andb_true_iff, !Nat.eqb_eq. split; [intros [-> ->]; reflexivity|intros E; injection E; auto]. Qed.
Lemma mem_spec a l : existsb (ceqb a) l = true <-> In a l.
Proof. rewrite existsb_exists. split; [intros (b & I & E); apply ceqb_spec in E; subst; exact I|intros I; exists a; split; [exact I|apply ceqb_spec; reflexivity]]. Qed.
Lemma index_nth a l : In a l -> nth_error l (index a l) = Some a.
Proof.
  induction l as [|b l IH]; [intros []|]. intros I. cbn [index]. destruct (ceqb a b) eqn:E; [apply ceqb_spec in E; subst; reflexivity|].
  destruct I as [->|I]; [rewrite (proj2 (ceqb_spec a a) eq_refl) in E; discriminate|]. exact (IH I).
Qed.
Lemma index_of l k a : NoDup l -> nth_error l k = Some a -> index a l = k.
Proof.
  intros N E. assert (I : In a l) by (eapply nth_error_In; exact E). eapply NoDup_nth_error; [exact N|apply nth_error_Some; rewrite (index_nth a l I); discriminate|]. rewrite (index_nth a l I), E. reflexivity.
Qed.

(** Twice the abscissa and the row of a node; four times its squared distance to another. *)
Definition q (X : cell -> Z) (a b : cell) : Z :=
  ((X a - X b) * (X a - X b) + 3 * ((Z.of_nat (snd a) - Z.of_nat (snd b)) * (Z.of_nat (snd a) - Z.of_nat (snd b))))%Z.
Lemma q_dist X a b : dist (IZR (X a) / 2, sqrt 3 / 2 * INR (snd a)) (IZR (X b) / 2, sqrt 3 / 2 * INR (snd b)) = sqrt (IZR (q X a b)) / 2.
Proof.
  unfold dist, q. cbn [fst snd]. pose proof (sqrt_sqrt 3 ltac:(lra)) as S3.
  replace (sqrt (IZR ((X a - X b) * (X a - X b) + 3 * ((Z.of_nat (snd a) - Z.of_nat (snd b)) * (Z.of_nat (snd a) - Z.of_nat (snd b))))) / 2)
    with (sqrt (/ 4) * sqrt (IZR ((X a - X b) * (X a - X b) + 3 * ((Z.of_nat (snd a) - Z.of_nat (snd b)) * (Z.of_nat (snd a) - Z.of_nat (snd b)))))).
  - rewrite <- sqrt_mult_alt by lra. f_equal. rewrite plus_IZR, !mult_IZR, !minus_IZR, !INR_IZR_INZ. set (x := IZR (X a)). set (y := IZR (X b)). set (u := IZR (Z.of_nat (snd a))). set (v := IZR (Z.of_nat (snd b))).
    replace ((sqrt 3 / 2 * u - sqrt 3 / 2 * v) ^ 2) with ((sqrt 3 * sqrt 3) * ((u - v) * (u - v)) / 4) by field. rewrite S3. field.
  - replace (/ 4) with (/ 2 * / 2) by lra. rewrite sqrt_square by lra. lra.
Qed.

Lemma lattice_shape (nodes : list cell) (edges : list (cell * cell)) (pos : cell -> point) (X : cell -> Z) s : 0 < s -> NoDup nodes -> (forall c : cell, pos c = (IZR (X c) / 2, sqrt 3 / 2 * INR (snd c))) ->
  (forall a b, In a nodes -> In b nodes -> a <> b -> (4 <= q X a b)%Z) ->
  (forall a b, In a nodes -> In b nodes -> ((In (a, b) edges \/ In (b, a) edges) <-> q X a b = 4%Z)) ->
  (exists a b, In a nodes /\ In b nodes /\ In (a, b) edges) ->
  shape (Register_graph (lattice_graph nodes edges pos) (Some s)) (length nodes) s /\
  (forall i c, nth_error nodes i = Some c -> coord (g_nodes (Register_graph (lattice_graph nodes edges pos) (Some s))) i = Some (fst (pos c) * s, snd (pos c) * s)).
Proof.
  intros Hs N HX H4 HE (a0 & b0 & Ia0 & Ib0 & Ie0).
  assert (Q0 : forall a, q X a a = 0%Z) by (intros a; unfold q; ring).
  assert (Qs : forall a b, q X a b = q X b a) by (intros a b; unfold q; ring).
  set (D := fun i j => sqrt (IZR (q X (nth i nodes (0, 0)%nat) (nth j nodes (0, 0)%nat))) / 2).
  assert (S4 : sqrt 4 = 2) by (replace 4 with (2 * 2) by lra; apply sqrt_square; lra).
  assert (NE : forall i j, (i < j < length nodes)%nat -> nth i nodes (0, 0)%nat <> nth j nodes (0, 0)%nat).
  { intros i j L E. assert (i = j); [|lia]. eapply NoDup_nth; [exact N|lia|lia|exact E]. }
  assert (EQ : forall i j, (i < j < length nodes)%nat -> (D i j = 1 <-> q X (nth i nodes (0, 0)%nat) (nth j nodes (0, 0)%nat) = 4%Z)).
  { intros i j L. unfold D. set (z := q X _ _). split; [|intros ->; lra]. intros E. assert (E2 : sqrt (IZR z) = 2) by lra. apply eq_IZR. rewrite <- (sqrt_sqrt (IZR z)); [rewrite E2; lra|].
    assert (4 <= z)%Z by (apply H4; [apply nth_In; lia|apply nth_In; lia|apply NE, L]). apply IZR_le in H. lra. }
  destruct (shape_of (map pos nodes) (g_edges (lattice_graph nodes edges pos)) 1 D s) as [R1 R2]; try lra.
  - intros i j p1 p2 L E1 E2. rewrite nth_error_map in E1, E2. destruct (nth_error nodes i) as [a|] eqn:Ea; [|discriminate E1]. destruct (nth_error nodes j) as [b|] eqn:Eb; [|discriminate E2]. injection E1 as <-. injection E2 as <-.
    rewrite !HX, q_dist. unfold D. rewrite (nth_error_nth nodes i _ Ea), (nth_error_nth nodes j _ Eb). lra.
  - intros i j L. rewrite map_length in L. assert (4 <= q X (nth i nodes (0, 0)%nat) (nth j nodes (0, 0)%nat))%Z by (apply H4; [apply nth_In; lia|apply nth_In; lia|apply NE, L]).
    unfold D. apply IZR_le in H. apply sqrt_le_1_alt in H. rewrite S4 in H. lra.
  - intros i j. rewrite map_length. unfold lattice_graph. cbn [g_edges]. rewrite in_map_iff. split.
    + intros ((a & b) & E & I). apply filter_In in I as (I & M). cbn [fst snd] in M. apply andb_true_iff in M as (Ma & Mb). apply mem_spec in Ma. apply mem_spec in Mb.
      pose proof (index_nth a nodes Ma) as Na. pose proof (index_nth b nodes Mb) as Nb. unfold relabel in E. cbn [fst snd] in E.
      assert (La : (index a nodes < length nodes)%nat) by (apply nth_error_Some; rewrite Na; discriminate). assert (Lb : (index b nodes < length nodes)%nat) by (apply nth_error_Some; rewrite Nb; discriminate).
      assert (Qab : q X a b = 4%Z) by (apply HE; auto).
      assert (Dab : index a nodes <> index b nodes). { intros W. rewrite W, Nb in Na. injection Na as <-. rewrite Q0 in Qab. discriminate. }
      apply (f_equal fst) in E as Ei. apply (f_equal snd) in E as Ej. cbn [fst snd] in Ei, Ej.
      assert (L : (i < j < length nodes)%nat) by lia. split; [exact L|]. apply EQ; [exact L|].
      destruct (Nat.le_gt_cases (index a nodes) (index b nodes)) as [W|W].
      * rewrite Nat.min_l in Ei by lia. rewrite Nat.max_r in Ej by lia. subst i j. rewrite (nth_error_nth nodes _ _ Na), (nth_error_nth nodes _ _ Nb). exact Qab.
      * rewrite Nat.min_r in Ei by lia. rewrite Nat.max_l in Ej by lia. subst i j. rewrite (nth_error_nth nodes _ _ Na), (nth_error_nth nodes _ _ Nb), Qs. exact Qab.
    + intros (L & E). apply EQ in E; [|exact L]. set (a := nth i nodes (0, 0)%nat) in *. set (b := nth j nodes (0, 0)%nat) in *.
      assert (Ia : In a nodes) by (apply nth_In; lia). assert (Ib : In b nodes) by (apply nth_In; lia).
      assert (Na : index a nodes = i) by (apply index_of; [exact N|apply nth_error_nth'; lia]). assert (Nb : index b nodes = j) by (apply index_of; [exact N|apply nth_error_nth'; lia]).
      apply HE in E as [E|E]; [exists (a, b)|exists (b, a)| assumption | assumption]; (split; [unfold relabel; cbn [fst snd]; rewrite Na, Nb; f_equal; lia|]); apply filter_In; (split; [exact E|]); apply andb_true_iff; cbn [fst snd]; rewrite !mem_spec; auto.
  - unfold lattice_graph. cbn [g_edges]. intros E. assert (I : In (relabel nodes (a0, b0)) []); [|destruct I]. rewrite <- E. apply in_map, filter_In. split; [exact Ie0|]. apply andb_true_iff. cbn [fst snd]. rewrite !mem_spec. auto.
  - rewrite map_length in R1. split; [exact R1|]. intros i c Hc. unfold lattice_graph in *. cbn [g_edges] in R2. rewrite (R2 i (pos c)); [|rewrite nth_error_map, Hc; reflexivity]. f_equal. f_equal; field.
Qed.

(** * Triangular lattices *)
Definition tri_X (c : cell) : Z := (Z.of_nat (Nat.modulo (snd c) 2) + 2 * Z.of_nat (fst c))%Z.
Lemma tri_pos_X c : tri_pos c = (IZR (tri_X c) / 2, sqrt 3 / 2 * INR (snd c)).
Proof. unfold tri_pos, tri_X. rewrite plus_IZR, mult_IZR, <- !INR_IZR_INZ. f_equal. field. Qed.
Lemma tri_in m n c : (1 <= m)%nat -> (1 <= n)%nat -> let N := Nat.div (n + 1) 2 in
  In c (tri_nodes m n) <-> (snd c <= m /\ fst c <= N)%nat /\ ~ (Nat.odd n = true /\ fst c = N /\ Nat.odd (snd c) = true).
Proof.
  intros Hm Hn N. unfold tri_nodes. rewrite (proj2 (Nat.eqb_neq m 0)), (proj2 (Nat.eqb_neq n 0)) by lia. cbn [orb]. fold N. rewrite filter_In. destruct c as [i j]. cbn [fst snd]. rewrite in_map_iff. split.
  - intros (([j' i'] & E & I) & F). injection E as <- <-. apply in_prod_iff in I as [I1 I2]. apply in_seq in I1, I2. cbn [fst snd]. split; [lia|]. intros (A & B & C). rewrite A, C, (proj2 (Nat.eqb_eq i' N) B) in F. discriminate.
  - intros ((A & B) & C). split; [exists (j, i); split; [reflexivity|]; apply in_prod_iff; split; apply in_seq; lia|]. apply negb_true_iff, not_true_iff_false. intros F. apply andb_true_iff in F as [F F3]. apply andb_true_iff in F as [F1 F2]. apply Nat.eqb_eq in F2. auto.
Qed.
Lemma nodup_map_inj {A B} (f : A -> B) l : (forall x y, f x = f y -> x = y) -> NoDup l -> NoDup (map f l).
Proof. intros I. induction 1 as [|x l H _ IH]; [constructor|]. cbn [map]. constructor; [|exact IH]. intros H'. apply in_map_iff in H' as (y & E & H'). apply I in E. subst. contradiction. Qed.
Lemma tri_nodup m n : NoDup (tri_nodes m n).
Proof.
  unfold tri_nodes. destruct (_ || _); [constructor|]. apply NoDup_filter, nodup_map_inj; [|apply prod_nodup; apply seq_NoDup]. intros [a b] [c e] E. cbn [fst snd] in E. congruence.
Qed.
Lemma half_cases k : exists a p, (k = 2 * a + p /\ Nat.modulo k 2 = p /\ Nat.div k 2 = a)%nat /\ (p = 0%nat /\ Nat.odd k = false /\ Nat.even k = true \/ p = 1%nat /\ Nat.odd k = true /\ Nat.even k = false).
Proof.
  exists (Nat.div k 2), (Nat.modulo k 2). pose proof (Nat.div_mod k 2 ltac:(lia)) as E. pose proof (Nat.mod_upper_bound k 2 ltac:(lia)) as B. split; [auto|].
  rewrite <- Nat.negb_even. destruct (Nat.even k) eqn:V.
  - apply Nat.even_spec in V as (c & V). left. split; [lia|auto].
  - right. split; [|auto]. assert (O : Nat.odd k = true) by (rewrite <- Nat.negb_even, V; reflexivity). apply Nat.odd_spec in O as (c & O). lia.
Qed.
Lemma tri_edge m n a b : let N := Nat.div (n + 1) 2 in
  In (a, b) (tri_edges m n) <->
  (snd a = snd b /\ fst b = S (fst a) /\ snd a <= m /\ fst a < N \/
   snd b = S (snd a) /\ fst b = fst a /\ snd a < m /\ fst a <= N \/
   snd b = S (snd a) /\ fst b = S (fst a) /\ snd a < m /\ Nat.odd (snd a) = true /\ fst a < N \/
   snd b = S (snd a) /\ fst a = S (fst b) /\ snd a < m /\ Nat.even (snd a) = true /\ fst b < N)%nat.
Proof.
  intros N. unfold tri_edges. fold N. destruct a as [i j], b as [k l]. cbn [fst snd]. rewrite !in_app_iff, !in_map_iff. split.
  - intros [([y x] & E & I)|[([y x] & E & I)|[([y x] & E & I)|([y x] & E & I)]]]; cbn [fst snd] in E; injection E as <- <- <- <-; apply in_prod_iff in I as [I1 I2]; try (apply filter_In in I1 as [I1 P]); apply in_seq in I1, I2.
    + left. lia.
    + right; left. lia.
    + right; right; left. repeat split; try lia; assumption.
    + right; right; right. repeat split; try lia; assumption.
  - intros [(A & B & C & D)|[(A & B & C & D)|[(A & B & C & P & D)|(A & B & C & P & D)]]]; subst.
    + left. exists (l, i). split; [reflexivity|]. apply in_prod_iff. split; apply in_seq; lia.
    + right; left. exists (j, i). split; [reflexivity|]. apply in_prod_iff. split; apply in_seq; lia.
    + right; right; left. exists (j, i). split; [reflexivity|]. apply in_prod_iff. split; [apply filter_In; split; [|exact P]|]; apply in_seq; lia.
    + right; right; right. exists (j, k). split; [reflexivity|]. apply in_prod_iff. split; [apply filter_In; split; [|exact P]|]; apply in_seq; lia.
Qed.
Lemma quad_far (x y : Z) : (x <> 0 \/ y <> 0 -> (x - y) mod 2 = 0 -> 4 <= x * x + 3 * (y * y))%Z.
Proof.
  intros H P. assert (C : (y = 0 \/ y = 1 \/ y = -1 \/ 2 <= y \/ y <= -2)%Z) by lia. apply Z.mod_divide in P; [|lia]. destruct P as (k & P).
  destruct C as [->|[->|[->|[C|C]]]]; [|assert (x <> 0)%Z by lia; nia|assert (x <> 0)%Z by lia; nia|nia|nia]. assert (x <= -2 \/ 2 <= x)%Z by lia. nia.
Qed.
Lemma quad_four (x y : Z) : (x * x + 3 * (y * y) = 4 <-> (y = 0 /\ (x = 2 \/ x = -2)) \/ ((y = 1 \/ y = -1) /\ (x = 1 \/ x = -1)))%Z.
Proof.
  split; [|intros [(-> & [->| ->])|([->| ->] & [->| ->])]; reflexivity]. intros H. assert (C : (y = 0 \/ y = 1 \/ y = -1)%Z) by nia.
  destruct C as [->|[->| ->]]; [left; split; [reflexivity|]; assert (-3 < x < 3)%Z by nia; assert (x = -2 \/ x = -1 \/ x = 0 \/ x = 1 \/ x = 2)%Z as [->|[->|[->|[->| ->]]]] by lia; lia|right|right];
    (split; [auto|]); assert (-2 < x < 2)%Z by nia; assert (x = -1 \/ x = 0 \/ x = 1)%Z as [->|[->| ->]] by lia; lia.
Qed.
Lemma tri_q a b : (a <> b -> (4 <= q tri_X a b)%Z) /\
  (q tri_X a b = 4%Z <->
   let e i j k l := (j = l /\ k = S i \/ l = S j /\ k = i \/ l = S j /\ k = S i /\ Nat.odd j = true \/ l = S j /\ i = S k /\ Nat.even j = true)%nat in
   e (fst a) (snd a) (fst b) (snd b) \/ e (fst b) (snd b) (fst a) (snd a)).
Proof.
  destruct a as [i j], b as [k l]. unfold q, tri_X. cbn [fst snd]. destruct (half_cases j) as (y & p & (Ej & Mj & _) & Pj). destruct (half_cases l) as (z & r & (El & Ml & _) & Pl). rewrite Mj, Ml.
  split.
  - intros N. apply quad_far.
    + destruct (Nat.eq_dec j l) as [E|E]; [left|right; lia]. assert (i <> k) by congruence. destruct Pj as [(? & _)|(? & _)], Pl as [(? & _)|(? & _)]; lia.
    + apply Z.mod_divide; [lia|]. destruct Pj as [(? & _)|(? & _)], Pl as [(? & _)|(? & _)]; subst p r; eexists (Z.of_nat i - Z.of_nat k - Z.of_nat y + Z.of_nat z)%Z; lia.
  - rewrite quad_four. cbv zeta. destruct Pj as [(Hp & O1 & V1)|(Hp & O1 & V1)], Pl as [(Hr & O2 & V2)|(Hr & O2 & V2)]; rewrite O1, V1, O2, V2; lia.
Qed.

(** A triangular lattice: qubits are joined exactly when they are nearest neighbours, and these are at the spacing; the positions are on rows of equilateral triangles. *)
Theorem C94_triangular : forall row col s, (1 <= row)%nat -> (1 <= col)%nat -> 0 < s ->
  shape (triangular_lattice row col s) (length (tri_nodes row col)) s /\
  forall k i j, nth_error (tri_nodes row col) k = Some (i, j) ->
    coord (g_nodes (triangular_lattice row col s)) k = Some (s * (INR i + (if Nat.odd j then / 2 else 0)), s * (sqrt 3 / 2 * INR j)).
Proof.
  intros m n s Hm Hn Hs. set (N := Nat.div (n + 1) 2). assert (HN : (1 <= N)%nat) by (unfold N; destruct (half_cases (n + 1)) as (a & p & (E & _ & ->) & P); lia).
  destruct (lattice_shape (tri_nodes m n) (tri_edges m n) tri_pos tri_X s Hs (tri_nodup m n) tri_pos_X) as [A B].
  - intros a b _ _ H. apply tri_q, H.
  - intros a b Ia Ib. rewrite !tri_edge. fold N. apply tri_in in Ia; [|exact Hm|exact Hn]. apply tri_in in Ib; [|exact Hm|exact Hn]. fold N in Ia, Ib. rewrite (proj2 (tri_q a b)). cbv zeta.
    destruct Ia as [Ia _], Ib as [Ib _]. split.
    + intros [H|H]; [left|right]; destruct H as [H|[H|[(H1 & H2 & H3 & H4 & H5)|(H1 & H2 & H3 & H4 & H5)]]]; try lia; auto 10.
    + intros [H|H]; [left|right]; destruct H as [H|[H|[(H1 & H2 & H4)|(H1 & H2 & H4)]]]; try lia; [right; right; left|right; right; right|right; right; left|right; right; right]; repeat split; try lia; assumption.
  - exists (0, 0)%nat, (0, 1)%nat. rewrite !tri_in by assumption. fold N. cbn [fst snd]. repeat split; try lia; try (intros (_ & H & _); lia). apply tri_edge. fold N. cbn [fst snd]. lia.
  - split; [exact A|]. intros k i j H. unfold triangular_lattice, triangular_lattice_graph. rewrite (B k (i, j) H). unfold tri_pos. cbn [fst snd]. destruct (half_cases j) as (y & p & (_ & -> & _) & [(-> & -> & _)|(-> & -> & _)]); cbn [INR]; f_equal; f_equal; ring.
Qed.

Lemma prod_last {B} (l : list B) m : list_prod (seq 0 (S m)) l = list_prod (seq 0 m) l ++ map (pair m) l.
Proof.
  rewrite seq_S. cbn [plus]. assert (G : forall a b : list nat, list_prod (a ++ b) l = list_prod a l ++ list_prod b l). { induction a as [|x a IH]; intros b; [reflexivity|]. cbn [app list_prod]. rewrite IH, app_assoc. reflexivity. }
  rewrite G. cbn [list_prod]. rewrite app_nil_r. reflexivity.
Qed.
(** The number of qubits: [row + 1] rows of [ceil(col / 2) + 1] qubits, of which every second one lacks its last qubit if [col] is odd. *)
Theorem C94_triangular_size : forall row col, (1 <= row)%nat -> (1 <= col)%nat ->
  (length (tri_nodes row col) + (if Nat.odd col then Nat.div (row + 1) 2 else 0) = (row + 1) * (Nat.div (col + 1) 2 + 1))%nat.
Proof.
  intros m n Hm Hn. unfold tri_nodes. rewrite (proj2 (Nat.eqb_neq m 0)), (proj2 (Nat.eqb_neq n 0)) by lia. cbn [orb]. cbv zeta. set (N := Nat.div (n + 1) 2). generalize (m + 1)%nat. clear. intros M.
  induction M as [|M IH]; [cbn; destruct (Nat.odd n); reflexivity|]. rewrite prod_last, map_app, filter_app, app_length.
  assert (R : (length (filter (fun c => negb (Nat.odd n && Nat.eqb (fst c) N && Nat.odd (snd c))) (map (fun ji => (snd ji, fst ji)) (map (pair M) (seq 0 (N + 1))))) + (if Nat.odd n && Nat.odd M then 1 else 0) = N + 1)%nat).
  { rewrite map_map. cbn [fst snd]. rewrite Nat.add_1_r, seq_S, map_app, filter_app, app_length. cbn [plus map filter fst snd]. rewrite Nat.eqb_refl, andb_true_r.
    assert (F : filter (fun c => negb (Nat.odd n && Nat.eqb (fst c) N && Nat.odd (snd c))) (map (fun x => (x, M)) (seq 0 N)) = map (fun x => (x, M)) (seq 0 N)).
    { assert (G : forall l, (forall x, In x l -> x < N)%nat -> filter (fun c => negb (Nat.odd n && Nat.eqb (fst c) N && Nat.odd (snd c))) (map (fun x => (x, M)) l) = map (fun x => (x, M)) l).
      { induction l as [|x l IHl]; intros H; [reflexivity|]. cbn [map filter fst snd]. specialize (H x (or_introl eq_refl)) as Hx. rewrite (proj2 (Nat.eqb_neq x N)) by lia. rewrite andb_false_r. cbn [andb negb]. rewrite IHl; [reflexivity|]. intros y Hy. apply H. right. exact Hy. }
      apply G. intros x Hx. apply in_seq in Hx. lia. }
    rewrite F, map_length, seq_length. destruct (Nat.odd n && Nat.odd M); cbn [negb length]; lia. }
  destruct (half_cases M) as (a & p & (E & Mp & D) & P). rewrite D in IH. destruct (half_cases (S M)) as (a' & p' & (E' & Mp' & D') & P'). rewrite D'.
  match type of R with (?r + _ = _)%nat => match type of IH with (?x + _ = _)%nat => match goal with |- (?a + ?b + _ = _)%nat => change b with r; change a with x; generalize dependent x; intros A IH; generalize dependent r; intros B R end end end.
  replace (S M * (N + 1))%nat with (M * (N + 1) + N + 1)%nat by ring.
  destruct (Nat.odd n); cbn [andb] in R; destruct P as [(? & O & _)|(? & O & _)]; try rewrite O in R; cbv iota in *; destruct P' as [(? & _)|(? & _)]; lia.
Qed.

(** * Honeycomb lattices *)
Definition hex_X (c : cell) : Z :=
  (1 + 2 * Z.of_nat (fst c) + 2 * Z.of_nat (Nat.div (fst c) 2) + Z.of_nat (Nat.modulo (snd c) 2) * (2 * Z.of_nat (Nat.modulo (fst c) 2) - 1))%Z.
Lemma hex_pos_X c : hex_pos c = (IZR (hex_X c) / 2, sqrt 3 / 2 * INR (snd c)).
Proof. unfold hex_pos, hex_X. rewrite !plus_IZR, !mult_IZR, minus_IZR, mult_IZR, <- !INR_IZR_INZ. f_equal. field. Qed.
Lemma hex_in m n c : (1 <= m)%nat -> (1 <= n)%nat ->
  In c (hex_nodes m n) <-> (fst c <= n /\ snd c <= 2 * m + 1)%nat /\ c <> (0, 2 * m + 1)%nat /\ c <> (n, (2 * m + 1) * Nat.modulo n 2)%nat.
Proof.
  intros Hm Hn. unfold hex_nodes, remove_node. rewrite (proj2 (Nat.eqb_neq m 0)), (proj2 (Nat.eqb_neq n 0)) by lia. cbn [orb]. rewrite !filter_In, !negb_true_iff, <- !not_true_iff_false, !ceqb_spec. destruct c as [i j]. cbn [fst snd]. split.
  - intros ((I & A) & B). apply in_prod_iff in I as [I1 I2]. apply in_seq in I1, I2. repeat split; try assumption; lia.
  - intros (I & A & B). split; [split|]; try assumption. apply in_prod_iff. split; apply in_seq; lia.
Qed.
Lemma hex_nodup m n : NoDup (hex_nodes m n).
Proof. unfold hex_nodes, remove_node. destruct (_ || _); [constructor|]. apply NoDup_filter, NoDup_filter, prod_nodup; apply seq_NoDup. Qed.
Lemma hex_edge m n a b : In (a, b) (hex_edges m n) <->
  (fst b = fst a /\ snd b = S (snd a) /\ fst a <= n /\ snd a <= 2 * m \/
   fst b = S (fst a) /\ snd b = snd a /\ fst a < n /\ snd a <= 2 * m + 1 /\ Nat.modulo (fst a) 2 = Nat.modulo (snd a) 2)%nat.
Proof.
  unfold hex_edges. destruct a as [i j], b as [k l]. cbn [fst snd]. rewrite in_app_iff, !in_map_iff. split.
  - intros [([x y] & E & I)|([x y] & E & I)]; cbn [fst snd] in E; injection E as <- <- <- <-; [|apply filter_In in I as [I P]; cbn [fst snd] in P; apply Nat.eqb_eq in P]; apply in_prod_iff in I as [I1 I2]; apply in_seq in I1, I2; lia.
  - intros [(A & B & C & D)|(A & B & C & D & P)]; subst.
    + left. exists (i, j). split; [reflexivity|]. apply in_prod_iff. split; apply in_seq; lia.
    + right. exists (i, j). split; [reflexivity|]. apply filter_In. split; [apply in_prod_iff; split; apply in_seq; lia|]. cbn [fst snd]. apply Nat.eqb_eq, P.
Qed.
Lemma hex_q a b : (a <> b -> (4 <= q hex_X a b)%Z) /\
  (q hex_X a b = 4%Z <->
   let e i j k l := (k = i /\ l = S j \/ k = S i /\ l = j /\ Nat.modulo i 2 = Nat.modulo j 2)%nat in
   e (fst a) (snd a) (fst b) (snd b) \/ e (fst b) (snd b) (fst a) (snd a)).
Proof.
  destruct a as [i j], b as [k l]. unfold q, hex_X. cbn [fst snd].
  destruct (half_cases i) as (y1 & p1 & (E1 & M1 & D1) & P1). destruct (half_cases j) as (y2 & p2 & (E2 & M2 & D2) & P2).
  destruct (half_cases k) as (y3 & p3 & (E3 & M3 & D3) & P3). destruct (half_cases l) as (y4 & p4 & (E4 & M4 & D4) & P4).
  rewrite M1, D1, M2, M3, D3, M4. assert (Q1 : p1 = 0%nat \/ p1 = 1%nat) by tauto. assert (Q2 : p2 = 0%nat \/ p2 = 1%nat) by tauto. assert (Q3 : p3 = 0%nat \/ p3 = 1%nat) by tauto. assert (Q4 : p4 = 0%nat \/ p4 = 1%nat) by tauto.
  clear P1 P2 P3 P4 M1 M2 M3 M4 D1 D2 D3 D4. split.
  - intros N. assert (N' : i <> k \/ j <> l) by (destruct (Nat.eq_dec i k), (Nat.eq_dec j l); subst; auto). apply quad_far.
    + destruct Q1 as [->| ->], Q2 as [->| ->], Q3 as [->| ->], Q4 as [->| ->]; lia.
    + apply Z.mod_divide; [lia|]. destruct Q1 as [->| ->], Q2 as [->| ->], Q3 as [->| ->], Q4 as [->| ->]; cbn [Z.of_nat]; apply Z.mod_divide; try lia; (rewrite Zminus_mod || idtac); Z.to_euclidean_division_equations; lia.
  - rewrite quad_four. cbv zeta. destruct Q1 as [->| ->], Q2 as [->| ->], Q3 as [->| ->], Q4 as [->| ->]; lia.
Qed.

(** A honeycomb lattice: qubits are joined exactly when they are nearest neighbours, and these are at the spacing. *)
Theorem C94_honeycomb : forall row col s, (1 <= row)%nat -> (1 <= col)%nat -> 0 < s ->
  shape (honeycomb_lattice row col s) (length (hex_nodes row col)) s.
Proof.
  intros m n s Hm Hn Hs. apply (lattice_shape (hex_nodes m n) (hex_edges m n) hex_pos hex_X s Hs (hex_nodup m n) hex_pos_X).
  - intros a b _ _ H. apply hex_q, H.
  - intros a b Ia Ib. rewrite !hex_edge. apply hex_in in Ia; [|exact Hm|exact Hn]. apply hex_in in Ib; [|exact Hm|exact Hn]. rewrite (proj2 (hex_q a b)). cbv zeta.
    destruct Ia as [Ia _], Ib as [Ib _]. split.
    + intros [H|H]; [left|right]; destruct H as [H|(H1 & H2 & H3 & H4 & H5)]; try lia; auto.
    + intros [H|H]; [left|right]; destruct H as [H|(H1 & H2 & H4)]; try lia; right; repeat split; try lia; assumption.
  - exists (0, 0)%nat, (0, 1)%nat. rewrite !hex_in by assumption. cbn [fst snd]. repeat split; try lia; try (intros E; injection E; lia). apply hex_edge. cbn [fst snd]. lia.
Qed.
Lemma remove_length x l : NoDup l -> In x l -> (S (length (remove_node x l)) = length l)%nat.
Proof.
  unfold remove_node. induction 1 as [|y l H N IH]; [intros []|]. cbn [filter]. destruct (ceqb y x) eqn:E; cbn [negb].
  - apply ceqb_spec in E. subst. intros _. cbn [length]. f_equal. clear IH N. induction l as [|z l IH]; [reflexivity|]. cbn [filter]. destruct (ceqb z x) eqn:E; [apply ceqb_spec in E; subst; exfalso; apply H; left; reflexivity|]. cbn [negb length]. rewrite IH; [reflexivity|]. intros I. apply H. right. exact I.
  - intros [->|I]; [rewrite (proj2 (ceqb_spec x x) eq_refl) in E; discriminate|]. cbn [length]. rewrite IH by exact I. reflexivity.
Qed.
Theorem C94_honeycomb_size : forall row col, (1 <= row)%nat -> (1 <= col)%nat -> length (hex_nodes row col) = ((col + 1) * (2 * row + 2) - 2)%nat.
Proof.
  intros m n Hm Hn. unfold hex_nodes. rewrite (proj2 (Nat.eqb_neq m 0)), (proj2 (Nat.eqb_neq n 0)) by lia. cbn [orb]. set (l := list_prod _ _). assert (N : NoDup l) by (apply prod_nodup; apply seq_NoDup).
  assert (I1 : In (0, 2 * m + 1)%nat l) by (apply in_prod_iff; split; apply in_seq; lia).
  pose proof (Nat.mod_upper_bound n 2 ltac:(lia)) as B.
  assert (I2 : In (n, (2 * m + 1) * Nat.modulo n 2)%nat (remove_node (0, 2 * m + 1)%nat l)).
  { unfold remove_node. apply filter_In. split; [apply in_prod_iff; split; apply in_seq; nia|]. apply negb_true_iff, not_true_iff_false. rewrite ceqb_spec. intros E. injection E. lia. }
  pose proof (remove_length _ _ N I1) as L1. pose proof (remove_length _ (remove_node (0, 2 * m + 1)%nat l) (NoDup_filter _ N) I2) as L2.
  assert (L : length l = ((n + 1) * (2 * m + 2))%nat) by (unfold l; rewrite prod_length, !seq_length; reflexivity).
  rewrite <- (eq_trans (f_equal S L2) (eq_trans L1 L)). cbn [Nat.sub]. rewrite Nat.sub_0_r. reflexivity.
Qed.

(** Two and three qubits without a given graph: all pairs are joined and at the spacing. *)
Theorem C94_all_to_all : forall n s, (n = 2 \/ n = 3)%nat -> 0 < s ->
  exists g, small_all_to_all n s = Some g /\ shape g n s /\ forall i j, (i < j < n)%nat -> In (i, j) (g_edges g) /\ pair_dist (g_nodes g) (i, j) = s.
Proof.
  intros n s [->| ->] Hs; (eexists; split; [reflexivity|]).
  - destruct (C73_line 2 s ltac:(lia) Hs) as (A & _). split; [exact A|]. intros i j L. assert (I : In (i, j) (g_edges (line_register 2 s))) by (assert (i = 0 /\ j = 1)%nat as (-> & ->) by lia; left; reflexivity). split; [exact I|]. apply A in I. apply I.
  - destruct (C94_triangular 1 1 s ltac:(lia) ltac:(lia) Hs) as (A & _). change (length (tri_nodes 1 1)) with 3%nat in A. split; [exact A|]. intros i j L.
    assert (I : In (i, j) (g_edges (triangular_lattice 1 1 s))). { assert ((i = 0 /\ j = 1) \/ (i = 0 /\ j = 2) \/ (i = 1 /\ j = 2))%nat as [(-> & ->)|[(-> & ->)|(-> & ->)]] by lia; cbn; tauto. }
    split; [exact I|]. apply A in I. apply I.
Qed.

(** The first argument, documented as the number of cells in each row, is the number of rows: a lattice asked for with three cells in each row and one
    in each column is four rows of qubits high. *)
Theorem C94_rows_refuted : forall s, 0 < s -> exists i j p p', coord (g_nodes (triangular_lattice 3 1 s)) i = Some p /\ coord (g_nodes (triangular_lattice 3 1 s)) j = Some p' /\
  snd p' - snd p = 3 * (s * (sqrt 3 / 2)) /\ (forall k i' j', nth_error (tri_nodes 3 1) k = Some (i', j') -> (i' <= 1)%nat).
Proof.
  intros s Hs. destruct (C94_triangular 3 1 s ltac:(lia) ltac:(lia) Hs) as (_ & A). exists 0%nat, 5%nat. do 2 eexists. split; [apply (A 0%nat 0%nat 0%nat); reflexivity|]. split; [apply (A 5%nat 0%nat 3%nat); reflexivity|].
  split; [cbn [snd INR]; lra|]. intros k i' j' H. apply nth_error_In in H. apply tri_in in H; [|lia|lia]. cbn in H. lia.
Qed.
Example C94_example : length (tri_nodes 2 2) = 6%nat /\ length (hex_nodes 1 1) = 6%nat /\ length (hex_nodes 2 2) = 16%nat /\ length (g_edges (honeycomb_lattice 1 1 1)) = 6%nat.
Proof. repeat split; reflexivity. Qed.

Print Assumptions C94_triangular.
Print Assumptions C94_honeycomb.
