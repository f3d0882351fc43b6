(** C55: the layout of the alternating layer ansatz. *)
From Coq Require Import String Reals List Arith Bool Lia Permutation ZArith.
From Coquelicot Require Import Coquelicot.
From Coq Require Import List.
From Verif Require Import S_Ops S_Sets M_QubitSupport M_Block S_Den M_BlockOps M_Tensor M_Transpile L_Support M_Checkpoint M_Names L_Names M_Hea M_Ala P_Hea.
Import ListNotations.
Open Scope string_scope.
Open Scope nat_scope.
Open Scope list_scope.

(** * Specification *)
(** The line of qubits is cut into blocks of [m] neighbours.  In the layers 0, 2, ... the first block starts at the first qubit; in the
    layers 1, 3, ... the cuts are moved by half a block. *)
Definition offset (m layer : nat) : nat := if Nat.even layer then 0 else (m + 1) / 2.
Definition block_of (m layer p : nat) : nat := (p + offset m layer) / m.
(** The pairs of neighbouring positions that lie in one block. *)
Definition linked (n m layer : nat) : list nat := filter (fun p => Nat.eqb (block_of m layer p) (block_of m layer (p + 1))) (seq 0 (n - 1)).
Definition pairs (qs : list nat) (ps : list nat) : list (nat * nat) := map (fun p => (nth p qs 0, nth (p + 1) qs 0)) ps.
(** The smallest number of qubits for blocks of [m] qubits. *)
Definition least_qubits (m depth : nat) : nat :=
  match depth with
  | 0 => 0
  | 1 => if Nat.ltb 2 m then 3 else 2
  | _ => match m with 3 => 4 | 4 => 5 | 5 => 4 | _ => 3 end
  end.

(** * Positions *)
Lemma in_zrange a b st x : (0 < st)%Z -> (In x (zrange a b st) <-> exists k, (0 <= k)%Z /\ x = (a + k * st)%Z /\ (x < b)%Z).
Proof.
  intros Hs. unfold zrange. rewrite in_map_iff. split.
  - intros (k & <- & Hk). apply in_seq in Hk. exists (Z.of_nat k). split; [lia|]. split; [reflexivity|].
    assert (H : (Z.of_nat k < (b - a + st - 1) / st)%Z) by lia. assert (H' : (Z.of_nat k + 1 <= (b - a + st - 1) / st)%Z) by lia.
    pose proof (Z.mul_div_le (b - a + st - 1) st Hs). nia.
  - intros (k & Hk & -> & Hb). exists (Z.to_nat k). split; [rewrite Z2Nat.id by exact Hk; reflexivity|]. apply in_seq. split; [lia|].
    assert (H : (k < (b - a + st - 1) / st)%Z). { apply Z.lt_le_trans with (k + 1)%Z; [lia|]. apply Z.div_le_lower_bound; [exact Hs|]. nia. }
    lia.
Qed.
Lemma nodup_zrange a b st : (0 < st)%Z -> NoDup (zrange a b st).
Proof. intros Hs. unfold zrange. apply FinFun.Injective_map_NoDup; [|apply seq_NoDup]. intros x y E. nia. Qed.
Lemma start_offset m d : start_i m d = (- Z.of_nat (offset m d))%Z.
Proof.
  unfold start_i, offset. destruct (Nat.even d); [reflexivity|]. rewrite Nat2Z.inj_div, Nat2Z.inj_add. change (Z.of_nat 1) with 1%Z. change (Z.of_nat 2) with 2%Z.
  pose proof (Z.div_mod (- Z.of_nat m) 2 ltac:(lia)). pose proof (Z.mod_pos_bound (- Z.of_nat m) 2 ltac:(lia)).
  pose proof (Z.div_mod (Z.of_nat m + 1) 2 ltac:(lia)). pose proof (Z.mod_pos_bound (Z.of_nat m + 1) 2 ltac:(lia)). lia.
Qed.
Definition place (m d p : nat) : nat := (p + offset m d) mod m.
(** A position belongs to the kron [sj] when its place in its block has the parity of [sj] and is not the last one. *)
Lemma in_positions n m d (sj : nat) p : 0 < m -> sj <= 1 -> (In p (ala_positions n m d (Z.of_nat sj)) <-> p + 1 < n /\ place m d p + 1 < m /\ Nat.even (place m d p) = Nat.even sj).
Proof.
  intros Hm Hj. unfold ala_positions. rewrite in_flat_map. split.
  - intros (j & Ij & H). apply in_flat_map in H as (i & Ii & H). apply in_zrange in Ij as (l & Hl & -> & Hjm); [|lia]. apply in_zrange in Ii as (k & Hk & -> & Hin); [|lia].
    rewrite start_offset in *. destruct ((_ && _ && _)%bool) eqn:E; [|destruct H]. destruct H as [<-|[]]. rewrite !andb_true_iff, !Z.ltb_lt, Z.leb_le in E. destruct E as [[E1 E2] E3].
    set (j := (Z.of_nat sj + l * 2)%Z) in *.
    assert (P : place m d (Z.to_nat (- Z.of_nat (offset m d) + k * Z.of_nat m + j)) = Z.to_nat j).
    { unfold place. apply Nat2Z.inj. rewrite Nat2Z.inj_mod, Nat2Z.inj_add, !Z2Nat.id by (unfold j in *; lia).
      replace (- Z.of_nat (offset m d) + k * Z.of_nat m + j + Z.of_nat (offset m d))%Z with (j + k * Z.of_nat m)%Z by ring. rewrite Z.mod_add by lia. apply Z.mod_small. unfold j in *; lia. }
    rewrite P. split; [lia|]. split; [lia|]. unfold j. replace (Z.to_nat (Z.of_nat sj + l * 2)) with (sj + 2 * Z.to_nat l) by lia. rewrite Nat.even_add_mul_even; [reflexivity|]. exists 1. reflexivity.
  - intros (H1 & H2 & H3). set (j := place m d p) in *. pose proof (Nat.div_mod (p + offset m d) m ltac:(lia)) as D. fold (place m d p) in D. fold j in D.
    set (k := (p + offset m d) / m) in *.
    assert (SJ : exists l, j = sj + 2 * l).
    { destruct sj as [|[|?]]; [| |lia].
      - apply Nat.even_spec in H3 as [l Hl]. exists l. lia.
      - assert (O : Nat.odd j = true) by (unfold Nat.odd; rewrite H3; reflexivity). apply Nat.odd_spec in O as [l Hl]. exists l. lia. }
    destruct SJ as [l Hl]. exists (Z.of_nat j). split.
    + apply in_zrange; [lia|]. exists (Z.of_nat l). lia.
    + apply in_flat_map. exists (start_i m d + Z.of_nat k * Z.of_nat m)%Z. rewrite start_offset.
      assert (PP : (Z.of_nat p + Z.of_nat (offset m d) = Z.of_nat m * Z.of_nat k + Z.of_nat j)%Z) by lia.
      split.
      * apply in_zrange; [lia|]. exists (Z.of_nat k). split; [lia|]. split; [reflexivity|]. lia.
      * assert (Q : (- Z.of_nat (offset m d) + Z.of_nat k * Z.of_nat m + Z.of_nat j = Z.of_nat p)%Z) by lia. rewrite Q.
        replace (Z.of_nat p + 1 <? Z.of_nat n)%Z with true by (symmetry; apply Z.ltb_lt; lia). replace (Z.of_nat j + 1 <? Z.of_nat m)%Z with true by (symmetry; apply Z.ltb_lt; lia).
        replace (0 <=? Z.of_nat p)%Z with true by (symmetry; apply Z.leb_le; lia). left. apply Nat2Z.id.
Qed.
Lemma nodup_flat_map {A B} (f : A -> list B) l : NoDup l -> (forall a, In a l -> NoDup (f a)) -> (forall a b x, In a l -> In b l -> In x (f a) -> In x (f b) -> a = b) -> NoDup (flat_map f l).
Proof.
  induction l as [|a l IH]; intros N H1 H2; cbn [flat_map]; [constructor|]. inversion N as [|? ? Na Nl]; subst. apply L_Ops.NoDup_app_intro.
  - apply H1. left. reflexivity.
  - apply IH; [exact Nl|intros b Hb; apply H1; right; exact Hb|]. intros b c x Hb Hc. apply H2; right; assumption.
  - intros x Hx Hy. apply in_flat_map in Hy as (b & Hb & Hy). assert (a = b) by (apply (H2 a b x); [left; reflexivity|right; exact Hb|exact Hx|exact Hy]). subst b. contradiction.
Qed.
Lemma positions_nodup n m d j : 0 < m -> (0 <= j)%Z -> NoDup (ala_positions n m d j).
Proof.
  intros Hm Hj. unfold ala_positions. apply nodup_flat_map; [apply nodup_zrange; lia| |].
  - intros a Ha. apply nodup_flat_map; [apply nodup_zrange; lia| |].
    + intros i _. destruct (_ && _ && _)%bool; repeat constructor. intros [].
    + intros i i' x _ _ H H'. destruct ((_ && _ && _)%bool) eqn:E in H; [|destruct H]. destruct ((_ && _ && _)%bool) eqn:E' in H'; [|destruct H'].
      rewrite !andb_true_iff, Z.leb_le in E, E'. destruct H as [H|[]], H' as [H'|[]]. lia.
  - intros a a' x Ha Ha' H H'. apply in_zrange in Ha as (l & Hl & -> & Hb); [|lia]. apply in_zrange in Ha' as (l' & Hl' & -> & Hb'); [|lia].
    apply in_flat_map in H as (i & Hi & H), H' as (i' & Hi' & H'). apply in_zrange in Hi as (k & Hk & -> & _); [|lia]. apply in_zrange in Hi' as (k' & Hk' & -> & _); [|lia].
    destruct ((_ && _ && _)%bool) eqn:E in H; [|destruct H]. destruct ((_ && _ && _)%bool) eqn:E' in H'; [|destruct H'].
    rewrite !andb_true_iff, Z.leb_le in E, E'. destruct H as [H|[]], H' as [H'|[]].
    assert (Q : (k * Z.of_nat m + (j + l * 2) = k' * Z.of_nat m + (j + l' * 2))%Z) by lia.
    assert (M : ((k * Z.of_nat m + (j + l * 2)) mod Z.of_nat m = (k' * Z.of_nat m + (j + l' * 2)) mod Z.of_nat m)%Z) by (rewrite Q; reflexivity).
    rewrite !(Z.add_comm (_ * Z.of_nat m)), !Z.mod_add, !Z.mod_small in M by lia. exact M.
Qed.
Lemma same_block m d p : 0 < m -> (block_of m d p = block_of m d (p + 1) <-> place m d p + 1 < m).
Proof.
  intros Hm. unfold block_of, place. set (x := p + offset m d). replace (p + 1 + offset m d) with (x + 1) by (unfold x; lia).
  pose proof (Nat.div_mod x m ltac:(lia)) as D. pose proof (Nat.mod_upper_bound x m ltac:(lia)) as U. split.
  - intros E. pose proof (Nat.div_mod (x + 1) m ltac:(lia)) as D'. pose proof (Nat.mod_upper_bound (x + 1) m ltac:(lia)) as U'. rewrite <- E in D'. lia.
  - intros H. apply (Nat.div_unique (x + 1) m (x / m) (x mod m + 1)); lia.
Qed.
(** Both krons of a layer together. *)
Lemma positions_linked n m d : 0 < m -> Permutation (flat_map (ala_positions n m d) (start_js m)) (linked n m d).
Proof.
  intros Hm. assert (IN0 : forall p, In p (ala_positions n m d 0%Z) <-> p + 1 < n /\ place m d p + 1 < m /\ Nat.even (place m d p) = true) by (intros p; apply (in_positions n m d 0 p Hm); lia).
  assert (IN1 : forall p, In p (ala_positions n m d 1%Z) <-> p + 1 < n /\ place m d p + 1 < m /\ Nat.even (place m d p) = false) by (intros p; apply (in_positions n m d 1 p Hm); lia).
  apply NoDup_Permutation.
  - unfold start_js. destruct (Nat.ltb 2 m); cbn [flat_map]; rewrite app_nil_r; [|apply positions_nodup; lia].
    apply L_Ops.NoDup_app_intro; [apply positions_nodup; lia|apply positions_nodup; lia|]. intros p H0 H1. apply IN0 in H0 as (_ & _ & H0). apply IN1 in H1 as (_ & _ & H1). congruence.
  - apply NoDup_filter, seq_NoDup.
  - intros p. unfold linked. rewrite filter_In, in_seq, Nat.eqb_eq, same_block by exact Hm. unfold start_js. destruct (Nat.ltb_spec 2 m) as [L|L]; cbn [flat_map]; rewrite app_nil_r.
    + rewrite in_app_iff, IN0, IN1. destruct (Nat.even (place m d p)); intuition lia.
    + rewrite IN0. split; [intuition lia|]. intros [H1 H2]. assert (Z0 : place m d p = 0) by lia. rewrite Z0. intuition lia.
Qed.

(** * Gates *)
Lemma ala_gates_eq n prefix s op ps : (forall p, In p ps -> p + 1 < n) -> forall k, ala_gates prefix s op ps k = ent_gates n prefix s op ps k.
Proof.
  intros H. induction ps as [|p ps IH]; intros k; [reflexivity|]. cbn [ala_gates ent_gates]. rewrite (Nat.mod_small (p + 1) n) by (apply H; left; reflexivity).
  rewrite IH by (intros q Hq; apply H; right; exact Hq). reflexivity.
Qed.
Lemma ala_gates_some prefix s op ps k gs : ala_gates prefix s op ps k = Some gs -> map (pair_of op) gs = map Some (pairs s ps) /\ flat_map gates gs = gs /\
  flat_map name_of gs = (if parametric op then map (ename prefix) (seq k (length ps)) else []) /\ (forall p, In p ps -> p + 1 < length s).
Proof.
  revert k gs. induction ps as [|p ps IH]; intros k gs H; cbn [ala_gates] in H.
  - injection H as <-. repeat split; [destruct (parametric op); reflexivity|intros p []].
  - destruct (nth_error s p) as [c|] eqn:E1; [|discriminate H]. cbn [obind] in H. destruct (nth_error s (p + 1)) as [t|] eqn:E2; [|discriminate H]. cbn [obind] in H.
    destruct (ala_gates prefix s op ps (k + 1)) as [rest|] eqn:E3; [|discriminate H]. cbn [obind] in H. injection H as <-. destruct (IH _ _ E3) as (I1 & I2 & I3 & I4).
    split; [|split; [|split]].
    + cbn [map pairs]. rewrite pair_of_entangler, I1. rewrite (nth_error_nth s p 0 E1), (nth_error_nth s (p + 1) 0 E2). reflexivity.
    + cbn [flat_map]. rewrite gates_entangler, I2. reflexivity.
    + cbn [flat_map length seq map]. rewrite name_entangler, I3, Nat.add_1_r. destruct (parametric op); reflexivity.
    + intros q [<-|Hq]; [|apply I4, Hq]. apply nth_error_Some. congruence.
Qed.
Lemma ala_krons_some si n m d prefix s op js : forall k ks, ala_krons si n m d prefix s op js k = Some ks ->
  map (pair_of op) (flat_map gates ks) = map Some (pairs s (flat_map (ala_positions n m d) js)) /\
  flat_map name_of (flat_map gates ks) = (if parametric op then map (ename prefix) (seq k (length (flat_map (ala_positions n m d) js))) else []) /\
  (forall j, In j js -> ala_positions n m d j <> []).
Proof.
  induction js as [|j js IH]; intros k ks H; cbn [ala_krons] in H.
  - injection H as <-. cbn [flat_map]. repeat split; [destruct (parametric op); reflexivity|intros j []].
  - destruct (ala_gates prefix s op (ala_positions n m d j) k) as [gs|] eqn:E1; [|discriminate H]. cbn [obind] in H. destruct (mk_kron si gs) as [kr|] eqn:E2; [|discriminate H]. cbn [obind] in H.
    destruct (ala_krons si n m d prefix s op js _) as [rest|] eqn:E3; [|discriminate H]. cbn [obind] in H. injection H as <-. destruct (IH _ _ E3) as (I1 & I2 & I3).
    destruct (ala_gates_some _ _ _ _ _ _ E1) as (G1 & G2 & G3 & _). assert (K : kr = BKron gs /\ gs <> []) by (unfold mk_kron in E2; destruct gs as [|g gs']; [discriminate E2|]; split; [|discriminate]; revert E2; clear; intros E2; destruct (_ : bool) in E2; congruence || idtac).
    destruct K as [-> Kn]. cbn [flat_map gates]. rewrite G2. split; [|split].
    + rewrite map_app, G1, I1. unfold pairs. rewrite !map_app. reflexivity.
    + rewrite flat_map_app, G3, I2, app_length, seq_app, map_app. destruct (parametric op); reflexivity.
    + intros x [<-|Hx]; [|apply I3, Hx]. intros Z. rewrite Z in E1. cbn [ala_gates] in E1. congruence.
Qed.
Lemma entanglers_ala_some si n m prefix s op : forall todo d k el, entanglers_ala si n m prefix s op d todo k = Some el ->
  length el = todo /\
  (forall t e, nth_error el t = Some e -> map (pair_of op) (gates e) = map Some (pairs s (flat_map (ala_positions n m (d + t)) (start_js m)))) /\
  (exists total, flat_map name_of (flat_map gates el) = (if parametric op then map (ename prefix) (seq k total) else [])) /\
  (forall t j, t < todo -> In j (start_js m) -> ala_positions n m (d + t) j <> []).
Proof.
  induction todo as [|todo IH]; intros d k el H; cbn [entanglers_ala] in H.
  - injection H as <-. split; [reflexivity|]. split; [intros [|t] e E; discriminate E|]. split; [exists 0; destruct (parametric op); reflexivity|intros; lia].
  - destruct (ala_krons si n m d prefix s op (start_js m) k) as [ks|] eqn:E1; [|discriminate H]. cbn [obind] in H.
    destruct (entanglers_ala si n m prefix s op (S d) todo _) as [rest|] eqn:E2; [|discriminate H]. cbn [obind] in H. injection H as <-.
    destruct (ala_krons_some _ _ _ _ _ _ _ _ _ _ E1) as (K1 & K2 & K3). destruct (IH _ _ _ E2) as (I1 & I2 & (total & I3) & I4).
    split; [cbn [length]; rewrite I1; reflexivity|]. split; [|split].
    + intros [|t] e E; cbn [nth_error] in E.
      * injection E as <-. rewrite Nat.add_0_r. exact K1.
      * rewrite Nat.add_succ_r. apply (I2 t e E).
    + exists (length (flat_map (ala_positions n m d) (start_js m)) + total). cbn [flat_map gates]. rewrite flat_map_app, K2, I3. destruct (parametric op); [|reflexivity]. rewrite seq_app, map_app. reflexivity.
    + intros [|t] j Ht Hj; [rewrite Nat.add_0_r; apply K3, Hj|]. rewrite Nat.add_succ_r. apply (I4 t j); [lia|exact Hj].
Qed.

(** * Which krons are empty *)
Lemma nonempty_iff n m d sj : 0 < m -> sj <= 1 -> (ala_positions n m d (Z.of_nat sj) <> [] <-> exists p, p + 1 < n /\ place m d p + 1 < m /\ Nat.even (place m d p) = Nat.even sj).
Proof.
  intros Hm Hj. split.
  - intros H. destruct (ala_positions n m d (Z.of_nat sj)) as [|p l] eqn:E; [congruence|]. exists p. apply (in_positions n m d sj p Hm Hj). rewrite E. left. reflexivity.
  - intros [p Hp] E. apply (in_positions n m d sj p Hm Hj) in Hp. rewrite E in Hp. destruct Hp.
Qed.
Definition full (n m d : nat) : Prop := forall j, In j (start_js m) -> ala_positions n m d j <> [].
Lemma full_zero n d : ~ full n 0 d.
Proof. intros H. apply (H 0%Z); [left; reflexivity|]. reflexivity. Qed.
Lemma full_one n d : ~ full n 1 d.
Proof. intros H. specialize (H 0%Z (or_introl eq_refl)). apply (nonempty_iff n 1 d 0) in H as (p & _ & H & _); lia. Qed.
Lemma full_two n d : full n 2 d <-> exists p, p + 1 < n /\ place 2 d p = 0.
Proof.
  split.
  - intros H. specialize (H 0%Z (or_introl eq_refl)). apply (nonempty_iff n 2 d 0) in H as (p & H1 & H2 & H3); [|lia|lia]. exists p. lia.
  - intros (p & H1 & H2) j [<-|[]]. apply (nonempty_iff n 2 d 0); [lia|lia|]. exists p. rewrite H2. repeat split; lia.
Qed.
Lemma full_more n m d : 2 < m -> (full n m d <-> exists p q, p + 1 < n /\ q + 1 < n /\ place m d p + 1 < m /\ place m d q + 1 < m /\ Nat.even (place m d p) = true /\ Nat.even (place m d q) = false).
Proof.
  intros Hm. unfold full, start_js. rewrite (proj2 (Nat.ltb_lt 2 m) Hm). split.
  - intros H. assert (H0 := H 0%Z (or_introl eq_refl)). assert (H1 := H 1%Z (or_intror (or_introl eq_refl))).
    apply (nonempty_iff n m d 0) in H0 as (p & P1 & P2 & P3); [|lia|lia]. apply (nonempty_iff n m d 1) in H1 as (q & Q1 & Q2 & Q3); [|lia|lia]. exists p, q. auto 10.
  - intros (p & q & P1 & Q1 & P2 & Q2 & P3 & Q3) j [<-|[<-|[]]].
    + apply (nonempty_iff n m d 0); [lia|lia|]. exists p. auto.
    + apply (nonempty_iff n m d 1); [lia|lia|]. exists q. auto.
Qed.
Lemma full_even n m d : Nat.even d = true -> (full n m d <-> 2 <= m /\ (if Nat.ltb 2 m then 3 else 2) <= n).
Proof.
  intros Ev. assert (PL : forall p, p < m -> place m d p = p) by (intros p Hp; unfold place, offset; rewrite Ev, Nat.add_0_r; apply Nat.mod_small, Hp).
  destruct m as [|[|[|m]]].
  - split; [intros H; destruct (full_zero n d H)|lia].
  - split; [intros H; destruct (full_one n d H)|lia].
  - rewrite full_two. cbn [Nat.ltb Nat.leb]. split; [intros (p & H & _); lia|]. intros [_ H]. exists 0. split; [lia|]. apply PL. lia.
  - rewrite full_more by lia. cbn [Nat.ltb Nat.leb]. split.
    + intros (p & q & P1 & Q1 & P2 & Q2 & P3 & Q3). split; [lia|]. destruct (le_lt_dec 3 n) as [L|L]; [exact L|]. exfalso. assert (p = 0) by lia. assert (q = 0) by lia. subst. congruence.
    + intros [_ H]. exists 0, 1. rewrite !PL by lia. repeat split; lia.
Qed.
Lemma full_odd n m d : Nat.even d = false -> (full n m d <-> 2 <= m /\ match m with 3 => 4 | 4 => 5 | 5 => 4 | _ => 3 end <= n).
Proof.
  intros Od. assert (PL : forall p, place m d p = (p + (m + 1) / 2) mod m) by (intros p; unfold place, offset; rewrite Od; reflexivity).
  destruct m as [|[|[|[|[|[|m]]]]]].
  - split; [intros H; destruct (full_zero n d H)|lia].
  - split; [intros H; destruct (full_one n d H)|lia].
  - rewrite full_two. split.
    + intros (p & H & Q). split; [lia|]. destruct p as [|p]; [rewrite PL in Q; discriminate Q|lia].
    + intros [_ H]. exists 1. split; [lia|]. rewrite PL. reflexivity.
  - rewrite full_more by lia. split.
    + intros (p & q & P1 & Q1 & P2 & Q2 & P3 & Q3). split; [lia|]. destruct q as [|[|q]]; rewrite PL in Q3; try discriminate Q3. lia.
    + intros [_ H]. exists 1, 2. rewrite !PL. cbv -[lt]. repeat split; lia.
  - rewrite full_more by lia. split.
    + intros (p & q & P1 & Q1 & P2 & Q2 & P3 & Q3). split; [lia|]. destruct q as [|[|[|q]]]; rewrite PL in Q2, Q3; try discriminate Q3; [cbv in Q2; lia|lia].
    + intros [_ H]. exists 0, 3. rewrite !PL. cbv -[lt]. repeat split; lia.
  - rewrite full_more by lia. split.
    + intros (p & q & P1 & Q1 & P2 & Q2 & P3 & Q3). split; [lia|]. destruct p as [|[|p]]; rewrite PL in P2, P3; try discriminate P3; [cbv in P2; lia|lia].
    + intros [_ H]. exists 2, 0. rewrite !PL. cbv -[lt]. repeat split; lia.
  - rewrite full_more by lia. split.
    + intros (p & q & P1 & Q1 & P2 & Q2 & P3 & Q3). split; [lia|]. destruct (le_lt_dec 3 n) as [L|L]; [exact L|]. exfalso. assert (p = 0) by lia. assert (q = 0) by lia. subst. congruence.
    + intros [_ H]. set (M := S (S (S (S (S (S m)))))) in *. set (c := (M + 1) / 2). assert (C1 : c + 2 < M).
      { unfold c. pose proof (Nat.div_mod (M + 1) 2 ltac:(lia)). pose proof (Nat.mod_upper_bound (M + 1) 2 ltac:(lia)). unfold M in *. lia. }
      assert (P0 : place M d 0 = c) by (rewrite PL; apply Nat.mod_small; fold c; lia). assert (P1 : place M d 1 = S c) by (rewrite PL; apply Nat.mod_small; fold c; lia).
      assert (Q : Nat.even (S c) = negb (Nat.even c)) by (rewrite Nat.even_succ; reflexivity).
      destruct (Nat.even c) eqn:Ec; [exists 0, 1|exists 1, 0]; rewrite P0, P1, Q, Ec; repeat split; lia.
Qed.
(** * Construction *)
Lemma step_place m d p : 0 < m -> place m d p + 1 < m -> place m d (p + 1) = place m d p + 1.
Proof.
  intros Hm H. unfold place in *. replace (p + 1 + offset m d) with (p + offset m d + 1) by lia. rewrite Nat.add_mod by lia.
  rewrite (Nat.mod_small 1 m) by lia. apply Nat.mod_small. exact H.
Qed.
Lemma ala_krons_def si n m d prefix s op : set_order si -> 0 < m -> n <= length s -> NoDup (firstn n s) -> forall js,
  (forall j, In j js -> (j = 0 \/ j = 1)%Z /\ ala_positions n m d j <> []) -> forall k, exists ks, ala_krons si n m d prefix s op js k = Some ks.
Proof.
  intros Hs Hm L N. induction js as [|j js IH]; intros H k; [eexists; reflexivity|]. cbn [ala_krons].
  destruct (H j (or_introl eq_refl)) as [Hj NE].
  assert (J : exists sj, sj <= 1 /\ j = Z.of_nat sj) by (destruct Hj as [-> | ->]; [exists 0|exists 1]; split; lia). destruct J as (sj & Lj & ->).
  assert (IP : forall p, In p (ala_positions n m d (Z.of_nat sj)) -> p + 1 < n /\ place m d p + 1 < m /\ Nat.even (place m d p) = Nat.even sj) by (intros p; apply in_positions; assumption).
  assert (ND : NoDup (ala_positions n m d (Z.of_nat sj))) by (apply positions_nodup; [exact Hm|lia]).
  assert (P1 : forall p, In p (ala_positions n m d (Z.of_nat sj)) -> p + 1 < n) by (intros p Hp; apply IP, Hp).
  rewrite (ala_gates_eq n _ _ _ _ P1).
  destruct (mk_ent_kron si Hs n prefix s op (ala_positions n m d (Z.of_nat sj))) with (k := k) as (gs & -> & E2); [intros i Hi; specialize (P1 i Hi); lia|exact L|exact N|exact ND|exact NE| |].
  { intros a b Ha Hb Ne. destruct (IP a Ha) as (A1 & A2 & A3), (IP b Hb) as (B1 & B2 & B3). rewrite !Nat.mod_small by lia. split; [|lia].
    intros Eab. rewrite Eab, step_place in A3 by assumption. rewrite Nat.add_1_r, Nat.even_succ in A3. unfold Nat.odd in A3. rewrite B3 in A3. destruct (Nat.even sj); discriminate A3. }
  cbn [obind]. rewrite E2. cbn [obind].
  destruct (IH (fun x Hx => H x (or_intror Hx)) (k + length (ala_positions n m d (Z.of_nat sj)))) as [ks ->]. eexists. reflexivity.
Qed.
Lemma entanglers_ala_def si n m prefix s op : set_order si -> 0 < m -> n <= length s -> NoDup (firstn n s) -> forall todo d, (forall t, t < todo -> full n m (d + t)) ->
  forall k, exists el, entanglers_ala si n m prefix s op d todo k = Some el.
Proof.
  intros Hs Hm L N. induction todo as [|todo IH]; intros d H k; [eexists; reflexivity|]. cbn [entanglers_ala].
  destruct (ala_krons_def si n m d prefix s op Hs Hm L N (start_js m)) with (k := k) as [ks ->].
  { intros j Hj. split; [revert Hj; unfold start_js; destruct (Nat.ltb 2 m); cbn [In]; intuition auto|].
    assert (F := H 0 ltac:(lia)). rewrite Nat.add_0_r in F. apply F, Hj. }
  cbn [obind]. destruct (IH (S d)) with (k := k + length (flat_map (ala_positions n m d) (start_js m))) as [el ->]; [|eexists; reflexivity].
  intros t Ht. replace (S d + t) with (d + S t) by lia. apply H. lia.
Qed.
Lemma full_layers n m depth : 0 < depth -> ((forall t, t < depth -> full n m t) <-> 2 <= m /\ least_qubits m depth <= n).
Proof.
  intros HD. destruct depth as [|[|depth]]; [lia| |].
  - cbn [least_qubits]. rewrite <- (full_even n m 0 eq_refl). split; [intros H; apply H; lia|]. intros H t Ht. replace t with 0 by lia. exact H.
  - assert (LQ : least_qubits m (S (S depth)) = match m with 3 => 4 | 4 => 5 | 5 => 4 | _ => 3 end) by reflexivity. rewrite LQ. rewrite <- (full_odd n m 1 eq_refl). split; [intros H; apply H; lia|].
    intros H t _. apply (full_odd n m 1 eq_refl) in H as [H1 H2]. destruct (Nat.even t) eqn:E; [apply (full_even n m t E)|apply (full_odd n m t E); auto].
    split; [exact H1|]. destruct m as [|[|[|[|[|[|m]]]]]]; cbn [Nat.ltb Nat.leb]; lia.
Qed.

(** * C55 *)
(** A circuit of [depth] layers.  In each layer: first every operation of the list on every qubit, in order; then one entangling gate for
    each pair of neighbouring qubits that lie in one block of that layer, and no other. *)
Theorem C55_layout : forall si n m depth prefix support ops op b, set_order si ->
  ala_digital si n m depth prefix support ops op = Some b ->
  let qs := match support with Some s => s | None => seq 0 n end in
  exists layers, length layers = depth /\ b = BChain (flat_map (fun l => [fst l; snd l]) layers) /\
    forall layer rotations entanglers, nth_error layers layer = Some (rotations, entanglers) ->
      map rotation_of (gates rotations) = map Some (list_prod ops (firstn n qs)) /\
      Permutation (map (pair_of op) (gates entanglers)) (map Some (pairs qs (linked n m layer))).
Proof.
  intros si n m depth prefix support ops op b Hs H qs. unfold ala_digital in H. fold qs in H.
  destruct (rotations_digital si n depth prefix qs ops 0) as [rl|] eqn:E1; [|discriminate H]. cbn [obind] in H.
  destruct (entanglers_ala si n m (prefix ++ "_ent") qs op 0 depth 0) as [el|] eqn:E2; [|discriminate H]. cbn [obind] in H. injection H as <-.
  apply (rotations_some si Hs) in E1 as (R1 & R2 & _ & _). apply entanglers_ala_some in E2 as (L1 & L2 & _ & L4).
  exists (combine rl el). split; [rewrite combine_length; lia|]. split; [rewrite interleave_flat by congruence; reflexivity|].
  intros t r e Hn. assert (Hin := nth_error_In _ _ Hn). assert (Ht : t < depth).
  { assert (Q : t < length (combine rl el)) by (apply nth_error_Some; congruence). rewrite combine_length in Q. lia. }
  split; [apply R2, (in_combine_l _ _ _ _ Hin)|].
  assert (He : nth_error el t = Some e).
  { clear - Hn. revert t el Hn. induction rl as [|x rl IH]; intros [|t] [|y el] Hn; cbn in Hn |- *; try discriminate Hn; [injection Hn as _ <-; reflexivity|apply IH, Hn]. }
  rewrite (L2 t e He), Nat.add_0_l.
  assert (Hm : 0 < m). { destruct m as [|m']; [|lia]. destruct (full_zero n t). intros j Hj. apply (L4 t j Ht Hj). }
  unfold pairs. rewrite !map_map. apply Permutation_map, positions_linked, Hm.
Qed.
(** No two gates share a parameter. *)
Theorem C55_names : forall si n m depth prefix support ops op b, set_order si ->
  ala_digital si n m depth prefix support ops op = Some b -> NoDup (flat_map name_of (gates b)).
Proof.
  intros si n m depth prefix support ops op b Hs H. unfold ala_digital in H. set (s := match support with Some s => s | None => seq 0 n end) in *.
  destruct (rotations_digital si n depth prefix s ops 0) as [rl|] eqn:E1; [|discriminate H]. cbn [obind] in H.
  destruct (entanglers_ala si n m (prefix ++ "_ent") s op 0 depth 0) as [el|] eqn:E2; [|discriminate H]. cbn [obind] in H. injection H as <-.
  apply (rotations_some si Hs) in E1 as (R1 & _ & R3 & _). apply entanglers_ala_some in E2 as (L1 & _ & (total & L3) & _).
  cbn [gates]. rewrite flat_map_flat_map. rewrite flat_map_flat_map in R3, L3. eapply Permutation_NoDup'; [apply interleave_perm; congruence|]. rewrite R3, L3.
  destruct (parametric op); [|rewrite app_nil_r; apply rname_nodup].
  apply L_Ops.NoDup_app_intro; [apply rname_nodup|apply ename_nodup|]. intros x Hx Hy. apply in_map_iff in Hx as (a & <- & _), Hy as (c & E & _).
  unfold rname, ename in E. rewrite append_assoc in E. apply append_inj in E. cbn [append] in E. injection E as E.
  destruct (dec_head a) as (h & x & E' & D). rewrite E' in E. injection E as <- _. discriminate D.
Qed.
(** It is constructed exactly when a block has two qubits or more, there are enough qubits for every layer to have its two groups of
    gates (one group for blocks of two), and the qubits are distinct. *)
Theorem C55_defined : forall si n m depth prefix support ops op, set_order si -> 0 < depth -> ops <> [] ->
  let qs := match support with Some s => s | None => seq 0 n end in
  ((exists b, ala_digital si n m depth prefix support ops op = Some b) <-> 2 <= m /\ least_qubits m depth <= n /\ n <= length qs /\ NoDup (firstn n qs)).
Proof.
  intros si n m depth prefix support ops op Hs HD HO qs. unfold ala_digital. fold qs. split.
  - intros [b H]. destruct (rotations_digital si n depth prefix qs ops 0) as [rl|] eqn:E1; [|discriminate H]. cbn [obind] in H.
    destruct (entanglers_ala si n m (prefix ++ "_ent") qs op 0 depth 0) as [el|] eqn:E2; [|discriminate H].
    apply (rotations_some si Hs) in E1 as (_ & _ & _ & R4). apply entanglers_ala_some in E2 as (_ & _ & _ & L4). destruct (R4 HD HO) as (A & _ & B).
    destruct (proj1 (full_layers n m depth HD)) as [F1 F2]; [intros t Ht j Hj; apply (L4 t j Ht Hj)|]. auto.
  - intros (M2 & LQ & L & N). assert (F := proj2 (full_layers n m depth HD) (conj M2 LQ)).
    assert (N0 : 0 < n). { assert (Q := F 0 HD). apply (full_even n m 0 eq_refl) in Q as [_ Q]. destruct (Nat.ltb 2 m); lia. }
    destruct (rotations_def si Hs n prefix qs ops L N0 N depth 0) as [rl ->]. cbn [obind].
    destruct (entanglers_ala_def si n m (prefix ++ "_ent") qs op Hs ltac:(lia) L N depth 0 F 0) as [el ->]. eexists. reflexivity.
Qed.
(** Finding: when the number of qubits is the size of a block, the second layer of blocks of two, three or four qubits cannot be
    built, because one of its groups of gates is empty and an empty kron is rejected. *)
Theorem C55_one_block_refuted : forall si m depth prefix ops op, set_order si -> ops <> [] -> 2 <= m <= 4 -> 2 <= depth ->
  ala_digital si m m depth prefix None ops op = None.
Proof.
  intros si m depth prefix ops op Hs HO Hm HD. destruct (ala_digital si m m depth prefix None ops op) as [b|] eqn:E; [|reflexivity]. exfalso.
  destruct (proj1 (C55_defined si m m depth prefix None ops op Hs ltac:(lia) HO) (ex_intro _ b E)) as (_ & Q & _).
  destruct depth as [|[|depth]]; [lia|lia|]. cbn [least_qubits] in Q. destruct m as [|[|[|[|[|m]]]]]; lia.
Qed.
(** Finding: two qubits cannot be used with blocks of more than two qubits, not even with one layer. *)
Theorem C55_two_qubits_refuted : forall si m depth prefix ops op, set_order si -> ops <> [] -> 2 < m -> 0 < depth ->
  ala_digital si 2 m depth prefix None ops op = None.
Proof.
  intros si m depth prefix ops op Hs HO Hm HD. destruct (ala_digital si 2 m depth prefix None ops op) as [b|] eqn:E; [|reflexivity]. exfalso.
  destruct (proj1 (C55_defined si 2 m depth prefix None ops op Hs HD HO) (ex_intro _ b E)) as (_ & Q & _).
  destruct depth as [|[|depth]]; [lia| |]; cbn [least_qubits] in Q; [rewrite (proj2 (Nat.ltb_lt 2 m) Hm) in Q; lia|]. destruct m as [|[|[|[|[|[|m]]]]]]; lia.
Qed.
(** Seven qubits in blocks of three: the pairs of the first and of the second layer, and a circuit of three layers exists. *)
Example C55_case :
  pairs (seq 0 7) (linked 7 3 0) = [(0, 1); (1, 2); (3, 4); (4, 5)] /\ pairs (seq 0 7) (linked 7 3 1) = [(1, 2); (2, 3); (4, 5); (5, 6)] /\
  exists b, ala_digital (nodup Nat.eq_dec) 7 3 3 "theta" None [RX_; RY_] E_CRX = Some b.
Proof.
  split; [reflexivity|]. split; [reflexivity|]. apply C55_defined; [intros l; split; [apply NoDup_nodup|intros q; apply nodup_In]|lia|discriminate|].
  cbn. repeat split; try lia. apply (seq_NoDup 7 0).
Qed.
Print Assumptions C55_layout.
Print Assumptions C55_names.
Print Assumptions C55_defined.
Print Assumptions C55_one_block_refuted.
Print Assumptions C55_two_qubits_refuted.
