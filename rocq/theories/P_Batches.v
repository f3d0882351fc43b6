(** C80: which data an epoch, a validation and a test use. *)
From Coq Require Import String List Arith Bool Lia Permutation.
From Coq Require Import List.
From Verif Require Import M_Batches.
Import ListNotations.
Open Scope nat_scope.

(** ** Grouping *)
Lemma chunks_concat : forall A fuel b (l : list A), 0 < b -> length l <= fuel -> concat (chunks A fuel b l) = l.
Proof.
  induction fuel as [|f IH]; intros b l Hb L; [destruct l; [reflexivity | simpl in L; lia] |].
  destruct l as [|x l]; [reflexivity |]. cbn [chunks concat]. rewrite IH; [apply firstn_skipn | exact Hb |].
  rewrite skipn_length. simpl length in *. lia.
Qed.
Lemma chunks_bounds : forall A fuel b (l : list A) c, 0 < b -> In c (chunks A fuel b l) -> 0 < length c <= b.
Proof.
  induction fuel as [|f IH]; intros b l c Hb H; [destruct H |]. destruct l as [|x l]; [destruct H |].
  cbn [chunks] in H. destruct H as [<- | H]; [rewrite firstn_length; simpl length; lia | exact (IH _ _ _ Hb H)].
Qed.
Lemma ceil_step : forall n b, 0 < b -> b < n -> (n + b - 1) / b = S ((n - b + b - 1) / b).
Proof. intros n b Hb H. replace (n + b - 1) with ((n - b + b - 1) + 1 * b) by lia. rewrite Nat.div_add by lia. lia. Qed.
Lemma ceil_small : forall n b, 0 < n -> n <= b -> (n + b - 1) / b = 1.
Proof. intros n b H H'. symmetry. apply (Nat.div_unique _ _ _ (n - 1)); lia. Qed.
Lemma chunks_length : forall A fuel b (l : list A), 0 < b -> length l <= fuel -> length (chunks A fuel b l) = (length l + b - 1) / b.
Proof.
  induction fuel as [|f IH]; intros b l Hb L.
  - destruct l; [| simpl in L; lia]. simpl. rewrite Nat.div_small by lia. reflexivity.
  - destruct l as [|x l]; [simpl; rewrite Nat.div_small by lia; reflexivity |]. cbn [chunks]. set (m := x :: l) in *.
    assert (Lm : 0 < length m) by (subst m; simpl; lia). cbn [length]. rewrite IH; [| exact Hb | rewrite skipn_length; lia].
    rewrite skipn_length. destruct (Nat.le_gt_cases (length m) b) as [H | H].
    + rewrite (ceil_small _ _ Lm H). replace (length m - b) with 0 by lia. rewrite (Nat.div_small (0 + b - 1)) by lia. reflexivity.
    + rewrite (ceil_step (length m) b) by lia. reflexivity.
Qed.
Lemma skipn_skipn' : forall A a b (l : list A), skipn a (skipn b l) = skipn (a + b) l.
Proof.
  intros A a b; revert a. induction b as [|b IH]; intros a l; [rewrite Nat.add_0_r; reflexivity |].
  destruct l as [|x l]; [rewrite !skipn_nil; reflexivity |]. rewrite Nat.add_succ_r. cbn [skipn]. apply IH.
Qed.
(** Every group is the corresponding stretch of the list. *)
Lemma chunks_nth : forall A fuel b (l : list A) i, 0 < b -> length l <= fuel -> nth i (chunks A fuel b l) [] = firstn b (skipn (i * b) l).
Proof.
  induction fuel as [|f IH]; intros b l i Hb L.
  - destruct l; [| simpl in L; lia]. cbn [chunks]. rewrite skipn_nil, firstn_nil. destruct i; reflexivity.
  - destruct l as [|x l]; [cbn [chunks]; rewrite skipn_nil, firstn_nil; destruct i; reflexivity |].
    set (m := x :: l) in *. assert (Lm : 0 < length m) by (subst m; simpl; lia).
    change (chunks A (S f) b m) with (firstn b m :: chunks A f b (skipn b m)).
    destruct i as [|i]; [reflexivity |]. cbn [nth]. rewrite IH; [| exact Hb | rewrite skipn_length; lia].
    rewrite skipn_skipn'. f_equal. f_equal. lia.
Qed.

(** Specification: the number of groups of [b] that [n] samples make. *)
Definition groups (n b : nat) : nat := n / b + (if n mod b =? 0 then 0 else 1).
Lemma groups_ceil : forall n b, 0 < b -> (n + b - 1) / b = groups n b.
Proof.
  intros n b Hb. unfold groups. pose proof (Nat.div_mod n b ltac:(lia)) as E. pose proof (Nat.mod_upper_bound n b ltac:(lia)) as U.
  destruct (Nat.eqb_spec (n mod b) 0) as [Z | Z]; symmetry.
  - apply (Nat.div_unique _ _ _ (b - 1)); nia.
  - apply (Nat.div_unique _ _ _ (n mod b - 1)); nia.
Qed.

Section Properties.
  Variable A : Type.
  Notation loader := (loader A). Notation source := (source A).
  Notation sort := (sort A). Notation dataset := (dataset A). Notation order := (order A).
  Notation batch_size := (batch_size A). Notation drop_last := (drop_last A).
  (** A loader whose passes go through the dataset, each sample once, in any order. *)
  Definition fair (l : loader) : Prop := 0 < batch_size l /\ forall e, Permutation (order l e) (dataset l).

  Lemma fair_length : forall l e, fair l -> length (order l e) = length (dataset l).
  Proof. intros l e [_ H]. apply Permutation_length, H. Qed.

  (** An epoch over a TensorDataset, for every order of the samples: every sample is used exactly once, in batches of the
      given size of which at most the last is smaller. *)
  Theorem C80_epoch : forall l e, fair l -> sort l = Tensors -> drop_last l = false ->
    let bs := first_batches A (num_batches A None (One A l)) l e in
    concat bs = order l e /\ Permutation (concat bs) (dataset l) /\ length bs = groups (length (dataset l)) (batch_size l) /\
    forall i, i < length bs -> nth i bs [] = firstn (batch_size l) (skipn (i * batch_size l) (order l e)) /\ nth i bs [] <> [].
  Proof.
    intros l e F K D bs. pose proof F as [Hb P].
    assert (E : bs = chunks A (length (order l e)) (batch_size l) (order l e)).
    { subst bs. unfold first_batches, num_batches, count_of, finite_pass. rewrite K, D. apply firstn_all2.
      rewrite chunks_length by (try exact Hb; lia). rewrite (fair_length l e F). lia. }
    rewrite E. rewrite chunks_concat by (try exact Hb; lia). split; [reflexivity |]. split; [apply P |]. split.
    - rewrite chunks_length by (try exact Hb; lia). rewrite (fair_length l e F). apply groups_ceil; exact Hb.
    - intros i Hi. split; [apply chunks_nth; [exact Hb | lia] |]. intros Z.
      assert (I : In (nth i (chunks A (length (order l e)) (batch_size l) (order l e)) []) (chunks A (length (order l e)) (batch_size l) (order l e))) by (apply nth_In; exact Hi).
      rewrite Z in I. apply chunks_bounds in I; [simpl in I; lia | exact Hb].
  Qed.

  (** With max_batches, an epoch uses exactly the first so many batches of the pass. *)
  Theorem C80_max : forall l e m, fair l -> sort l = Tensors -> drop_last l = false ->
    let bs := first_batches A (num_batches A (Some m) (One A l)) l e in
    concat bs = firstn (m * batch_size l) (order l e) /\ length bs = Nat.min m (groups (length (dataset l)) (batch_size l)).
  Proof.
    intros l e m F K D bs. pose proof F as [Hb P].
    assert (E : bs = firstn m (chunks A (length (order l e)) (batch_size l) (order l e))).
    { subst bs. unfold first_batches, num_batches, count_of, finite_pass. rewrite K, D.
      set (cs := chunks A (length (order l e)) (batch_size l) (order l e)).
      assert (L : length cs = (length (dataset l) + batch_size l - 1) / batch_size l)
        by (subst cs; rewrite chunks_length by (try exact Hb; lia); rewrite (fair_length l e F); reflexivity).
      rewrite <- L. destruct (Nat.le_gt_cases m (length cs)); [rewrite Nat.min_l by lia; reflexivity | rewrite Nat.min_r by lia; rewrite firstn_all; symmetry; apply firstn_all2; lia]. }
    rewrite E. split.
    - clear. assert (G : forall fuel l0, 0 < batch_size l -> length l0 <= fuel -> forall m, concat (firstn m (chunks A fuel (batch_size l) l0)) = firstn (m * batch_size l) l0).
      { intros fuel; induction fuel as [|f IH]; intros l0 Hb L j.
        - destruct l0; [| simpl in L; lia]. cbn [chunks]. rewrite !firstn_nil. reflexivity.
        - destruct l0 as [|x l0]; [cbn [chunks]; rewrite !firstn_nil; reflexivity |]. set (k := x :: l0) in *.
          assert (Lk : 0 < length k) by (subst k; simpl; lia).
          change (chunks A (S f) (batch_size l) k) with (firstn (batch_size l) k :: chunks A f (batch_size l) (skipn (batch_size l) k)).
          destruct j as [|j]; [reflexivity |]. cbn [firstn concat]. rewrite IH; [| exact Hb | rewrite skipn_length; lia].
          cbn [Nat.mul]. rewrite <- (firstn_skipn (batch_size l) (firstn (batch_size l + j * batch_size l) k)).
          rewrite firstn_firstn, Nat.min_l by lia. f_equal. rewrite skipn_firstn_comm. f_equal. lia. }
      destruct (Nat.eq_0_gt_0_cases (batch_size l)) as [Z | Z]; [| apply G; [exact Z | lia]].
      rewrite Z, Nat.mul_0_r. cbn [firstn]. generalize (length (order l e)) as fu. clear G. intros fu. revert m. generalize (order l e). induction fu as [|fu IH]; intros k j; [destruct j; reflexivity |].
      destruct k as [|x k]; [destruct j; reflexivity |]. destruct j as [|j]; [reflexivity |]. cbn [chunks firstn concat skipn app]. apply IH.
    - rewrite firstn_length, chunks_length by (try exact Hb; lia). rewrite (fair_length l e F), groups_ceil by exact Hb. reflexivity.
  Qed.

  (** With drop_last every batch is full, and only a last smaller one is left out. *)
  Theorem C80_drop_last : forall l e, fair l -> sort l = Tensors -> drop_last l = true ->
    let bs := first_batches A (num_batches A None (One A l)) l e in
    concat bs = firstn (length (dataset l) / batch_size l * batch_size l) (order l e) /\
    length bs = length (dataset l) / batch_size l /\ Forall (fun b => length b = batch_size l) bs.
  Proof.
    intros l e F K D bs. pose proof F as [Hb P].
    assert (G : forall fuel k, length k <= fuel -> let cs := filter (fun c => length c =? batch_size l) (chunks A fuel (batch_size l) k) in
      concat cs = firstn (length k / batch_size l * batch_size l) k /\ length cs = length k / batch_size l).
    { induction fuel as [|f IH]; intros k L; [destruct k; [| simpl in L; lia]; simpl; rewrite Nat.div_small by lia; split; reflexivity |].
      destruct k as [|x k]; [simpl; rewrite Nat.div_small by lia; split; reflexivity |]. set (m := x :: k) in *.
      assert (Lm : 0 < length m) by (subst m; simpl; lia).
      change (chunks A (S f) (batch_size l) m) with (firstn (batch_size l) m :: chunks A f (batch_size l) (skipn (batch_size l) m)).
      cbn [filter]. rewrite firstn_length. destruct (IH (skipn (batch_size l) m)) as [I1 I2]; [rewrite skipn_length; lia |]. rewrite skipn_length in I1, I2.
      destruct (Nat.le_gt_cases (batch_size l) (length m)) as [H | H].
      - rewrite Nat.min_l by lia. rewrite Nat.eqb_refl. cbn [concat length].
        assert (Q : length m / batch_size l = S ((length m - batch_size l) / batch_size l)).
        { rewrite <- (Nat.sub_add (batch_size l) (length m)) at 1 by lia. replace (length m - batch_size l + batch_size l) with (length m - batch_size l + 1 * batch_size l) by lia.
          rewrite Nat.div_add by lia. lia. }
        rewrite Q. split; [| rewrite I2; reflexivity]. rewrite I1. cbn [Nat.mul]. set (j := (length m - batch_size l) / batch_size l * batch_size l) in *.
        rewrite <- (firstn_skipn (batch_size l) (firstn (batch_size l + j) m)). rewrite firstn_firstn, Nat.min_l by lia. f_equal.
        rewrite skipn_firstn_comm. f_equal. lia.
      - rewrite Nat.min_r by lia. destruct (Nat.eqb_spec (length m) (batch_size l)); [lia |].
        rewrite I1, I2. replace (length m - batch_size l) with 0 by lia. rewrite !Nat.div_small by lia. split; reflexivity. }
    assert (E : bs = filter (fun c => length c =? batch_size l) (chunks A (length (order l e)) (batch_size l) (order l e))).
    { subst bs. unfold first_batches, num_batches, count_of, finite_pass. rewrite K, D. apply firstn_all2.
      destruct (G (length (order l e)) (order l e) (le_n _)) as [_ ->]. rewrite (fair_length l e F). apply Nat.div_le_mono; lia. }
    rewrite E. destruct (G (length (order l e)) (order l e) (le_n _)) as [G1 G2]. rewrite G1, G2, (fair_length l e F).
    split; [reflexivity |]. split; [reflexivity |]. apply Forall_forall. intros c Hc. apply filter_In in Hc. apply Nat.eqb_eq, Hc.
  Qed.

  (** An infinite dataset gives one batch per epoch, full, of consecutive samples of the endless pass. *)
  Lemma endless_spec : forall m (xs : list A) i d, xs <> [] -> i < m -> nth i (endless A m xs) d = nth (i mod length xs) xs d.
  Proof.
    intros m xs i d N H. unfold endless. assert (L : 0 < length xs) by (destruct xs; [contradiction | simpl; lia]).
    assert (R : forall k j, j < k * length xs -> nth j (concat (repeat xs k)) d = nth (j mod length xs) xs d).
    { induction k as [|k IH]; intros j Hj; [simpl in Hj; lia |]. cbn [repeat concat]. destruct (Nat.lt_ge_cases j (length xs)) as [Hl | Hg].
      - rewrite app_nth1 by exact Hl. rewrite Nat.mod_small by exact Hl. reflexivity.
      - rewrite app_nth2 by exact Hg. rewrite IH by (simpl in Hj; lia). f_equal.
        replace j with (j - length xs + 1 * length xs) at 2 by lia. rewrite Nat.mod_add by lia. reflexivity. }
    rewrite <- (R m i) by nia.
    rewrite <- (firstn_skipn m (concat (repeat xs m))) at 2. rewrite app_nth1; [reflexivity |].
    rewrite firstn_length. assert (length (concat (repeat xs m)) = m * length xs).
    { clear. induction m as [|m IH]; [reflexivity |]. cbn [repeat concat]. rewrite app_length, IH. lia. }
    nia.
  Qed.
  Lemma endless_length : forall m (xs : list A), xs <> [] -> length (endless A m xs) = m.
  Proof.
    intros m xs N. unfold endless. rewrite firstn_length. assert (L : length (concat (repeat xs m)) = m * length xs).
    { clear. induction m as [|m IH]; [reflexivity |]. cbn [repeat concat]. rewrite app_length, IH. lia. }
    rewrite L. destruct xs as [|x xs]; [contradiction | simpl length; nia].
  Qed.
  Theorem C80_infinite : forall l e m, 0 < batch_size l -> sort l = Infinite -> order l e <> [] ->
    exists b, first_batches A (num_batches A m (One A l)) l e = [b] /\ length b = batch_size l /\
      forall i d, i < batch_size l -> nth i b d = nth (i mod length (order l e)) (order l e) d.
  Proof.
    intros l e m Hb K N. unfold first_batches, num_batches, count_of. rewrite K. rewrite Nat.mul_1_l.
    exists (endless A (batch_size l) (order l e)). pose proof (endless_length (batch_size l) (order l e) N) as L.
    split; [| split; [exact L | intros i d Hi; apply endless_spec; assumption]].
    destruct (batch_size l) as [|b] eqn:B; [lia |]. destruct (endless A (S b) (order l e)) as [|x xs] eqn:E; [simpl in L; lia |].
    cbn [chunks]. rewrite <- L. rewrite firstn_all, skipn_all. destruct b; reflexivity.
  Qed.

  (** Without a loader there is one step per epoch, with no data. *)
  Theorem C80_no_loader : forall m e, batch_iter A (Absent A) (num_batches A m (Absent A)) e = [Nothing A].
  Proof. reflexivity. Qed.

  (** Finding: of a dataset of any other class, an epoch only uses the first batch of the pass: with an order that does
      not change, the samples after it are never used, in any number of epochs. *)
  Theorem C80_other_refuted : forall l m e b, sort l = Other -> drop_last l = false -> 0 < batch_size l -> (forall e, order l e = dataset l) ->
    In b (first_batches A (num_batches A m (One A l)) l e) -> b = firstn (batch_size l) (dataset l).
  Proof.
    intros l m e b K D Hb O H. unfold first_batches, num_batches, count_of, finite_pass in H. rewrite K, D, O in H.
    destruct (dataset l) as [|x k] eqn:E; [destruct H |]. cbn [length chunks firstn] in H. destruct H as [<- | []]. reflexivity.
  Qed.

  (** ** Several loaders *)
  Lemma dict_steps_spec : forall k ls i, i < length (dict_steps A k ls) ->
    nth i (dict_steps A k ls) [] = map (fun l => (fst l, nth i (snd l) [])) ls.
  Proof.
    induction k as [|k IH]; intros ls i H; [simpl in H; lia |]. cbn [dict_steps] in *.
    destruct (forallb (fun l => match snd l with [] => false | _ => true end) ls); [| simpl in H; lia].
    destruct i as [|i]; cbn [nth].
    - apply map_ext. intros [a [|c cs]]; reflexivity.
    - rewrite IH by (simpl in H; lia). rewrite map_map. apply map_ext. intros [a [|c cs]]; simpl; [destruct i; reflexivity | reflexivity].
  Qed.
  Lemma dict_steps_length : forall k ls j, length (dict_steps A k ls) = j <-> (j <= k /\ (forall l, In l ls -> j <= length (snd l)) /\ (j = k \/ exists l, In l ls /\ length (snd l) = j)).
  Proof.
    induction k as [|k IH]; intros ls j.
    - cbn [dict_steps length]. split; [intros <-; repeat split; [lia | intros; lia | left; reflexivity] | intros (H & _); lia].
    - cbn [dict_steps]. destruct (forallb (fun l => match snd l with [] => false | _ => true end) ls) eqn:F.
      + assert (P : forall l, In l ls -> 0 < length (snd l)).
        { intros l Hl. rewrite forallb_forall in F. specialize (F l Hl). destruct (snd l); [discriminate | simpl; lia]. }
        assert (T : forall l : string * list (list A), length (tl (snd l)) = length (snd l) - 1) by (intros [a [|c cs]]; simpl; lia).
        cbn [length]. destruct j as [|j].
        * split; [lia |]. intros (_ & _ & [H | (l & Hl & H)]); [lia | specialize (P l Hl); lia].
        * transitivity (length (dict_steps A k (map (fun l => (fst l, tl (snd l))) ls)) = j); [split; lia |]. rewrite IH. split.
          -- intros (H1 & H2 & H3). split; [lia |]. split.
             ++ intros l Hl. specialize (H2 _ (in_map (fun l => (fst l, tl (snd l))) _ _ Hl)). cbn [snd] in H2. rewrite T in H2. specialize (P l Hl). lia.
             ++ destruct H3 as [H3 | (l & Hl & H3)]; [left; lia |]. apply in_map_iff in Hl. destruct Hl as (l' & <- & Hl'). cbn [snd] in H3. rewrite T in H3.
                right. exists l'. split; [exact Hl' | specialize (P l' Hl'); lia].
          -- intros (H1 & H2 & H3). split; [lia |]. split.
             ++ intros l Hl. apply in_map_iff in Hl. destruct Hl as (l' & <- & Hl'). cbn [snd]. rewrite T. specialize (H2 l' Hl'). lia.
             ++ destruct H3 as [H3 | (l & Hl & H3)]; [left; lia |]. right. exists (fst l, tl (snd l)). split; [apply in_map_iff; exists l; split; [reflexivity | exact Hl] |].
                cbn [snd]. rewrite T. lia.
      + assert (Z : exists l, In l ls /\ snd l = []).
        { clear IH. induction ls as [|l ls IH']; [discriminate |]. cbn [forallb] in F. destruct (snd l) eqn:S; [exists l; split; [left; reflexivity | exact S] |].
          destruct (IH' F) as (l' & H & H'). exists l'. split; [right; exact H | exact H']. }
        destruct Z as (l0 & Hl0 & Z). cbn [length]. split.
        * intros <-. split; [lia |]. split; [intros; lia |]. right. exists l0. split; [exact Hl0 | rewrite Z; reflexivity].
        * intros (_ & H & _). specialize (H l0 Hl0). rewrite Z in H. simpl in H. lia.
  Qed.

  (** Step [i] takes batch [i] of every loader; there are as many steps as the first loader's count and the shortest of
      the loaders allow. *)
  Theorem C80_dict : forall l ls m e, let k := num_batches A m (Dict A l ls) in
    let steps := dict_steps A k (map (fun d => (fst d, first_batches A k (snd d) e)) (l :: ls)) in
    batch_iter A (Dict A l ls) k e = map (Keyed A) steps /\
    (forall i, i < length steps -> nth i steps [] = map (fun d => (fst d, nth i (first_batches A k (snd d) e) [])) (l :: ls)) /\
    (forall j, length steps = j <-> j <= k /\ (forall d, In d (l :: ls) -> j <= length (first_batches A k (snd d) e)) /\
      (j = k \/ exists d, In d (l :: ls) /\ length (first_batches A k (snd d) e) = j)).
  Proof.
    intros l ls m e k steps. split; [reflexivity |]. split.
    - intros i Hi. subst steps. rewrite dict_steps_spec by exact Hi. rewrite map_map. reflexivity.
    - intros j. subst steps. rewrite dict_steps_length. split; intros (H1 & H2 & H3); (split; [exact H1 |]); split.
      + intros d Hd. exact (H2 _ (in_map (fun d => (fst d, first_batches A k (snd d) e)) _ _ Hd)).
      + destruct H3 as [H3 | (x & Hx & H3)]; [left; exact H3 |]. apply in_map_iff in Hx. destruct Hx as (d & <- & Hd). right. exists d. split; [exact Hd | exact H3].
      + intros x Hx. apply in_map_iff in Hx. destruct Hx as (d & <- & Hd). exact (H2 d Hd).
      + destruct H3 as [H3 | (d & Hd & H3)]; [left; exact H3 |]. right. eexists. split; [apply in_map_iff; exists d; split; [reflexivity | exact Hd] | exact H3].
  Qed.

  (** ** Fits and tests *)
  (** The loader a trainer trains on after a history of calls: the last one a fit was given, or the original one. *)
  Fixpoint last_given (s : source) (cs : list (call A)) (pick : call A -> source) : source :=
    match cs with [] => s | c :: r => last_given (match pick c with Absent _ => s | given => given end) r pick end.
  Definition fit_train (c : call A) : source := match c with Fit _ tr _ => tr | Test _ _ _ => Absent A end.
  Definition fit_val (c : call A) : source := match c with Fit _ _ va => va | Test _ _ _ => Absent A end.
  Definition test_of (c : call A) : source := match c with Fit _ _ _ => Absent A | Test _ s _ => s end.

  Lemma prepare_one : forall s, prepare A 1 0 (fun xs => xs) s = s.
  Proof.
    intros [|l | [a l] ls]; cbn; try reflexivity. unfold prepare. f_equal. cbn.
    rewrite <- (map_id ls) at 2. apply map_ext. intros [b k]; reflexivity.
  Qed.

  (** Over every history of fits and tests of a trainer in one process: an epoch trains and validates on the loaders last
      given to fit, with the number of batches computed for them. *)
  Theorem C80_history : forall cs m tr va te, let t := fold_left (called A) cs (new_trainer A m tr va te) in
    train A t = last_given tr cs fit_train /\ val A t = last_given va cs fit_val /\ testing A t = last_given te cs test_of /\
    n_train A t = num_batches A m (train A t) /\ n_val A t = num_batches A m (val A t) /\ n_test A t = num_batches A m (testing A t).
  Proof.
    intros cs m tr va te.
    assert (G : forall cs t, n_train A t = num_batches A (max_batches A t) (train A t) -> n_val A t = num_batches A (max_batches A t) (val A t) ->
      n_test A t = num_batches A (max_batches A t) (testing A t) ->
      let t' := fold_left (called A) cs t in max_batches A t' = max_batches A t /\
      train A t' = last_given (train A t) cs fit_train /\ val A t' = last_given (val A t) cs fit_val /\ testing A t' = last_given (testing A t) cs test_of /\
      n_train A t' = num_batches A (max_batches A t) (train A t') /\ n_val A t' = num_batches A (max_batches A t) (val A t') /\ n_test A t' = num_batches A (max_batches A t) (testing A t')).
    { clear. induction cs as [|c cs IH]; intros t H1 H2 H3; cbn [fold_left last_given]; [repeat split; assumption |].
      assert (N : n_train A (called A t c) = num_batches A (max_batches A (called A t c)) (train A (called A t c)) /\
        n_val A (called A t c) = num_batches A (max_batches A (called A t c)) (val A (called A t c)) /\
        n_test A (called A t c) = num_batches A (max_batches A (called A t c)) (testing A (called A t c)) /\
        max_batches A (called A t c) = max_batches A t /\
        train A (called A t c) = (match fit_train c with Absent _ => train A t | given => given end) /\
        val A (called A t c) = (match fit_val c with Absent _ => val A t | given => given end) /\
        testing A (called A t c) = (match test_of c with Absent _ => testing A t | given => given end)).
      { destruct c as [tr va | s e]; cbn [called fit_train fit_val test_of present].
        - unfold fit_setup. destruct tr as [|x|[? x] y], va as [|z|[? z] w]; cbn [present]; cbn -[prepare]; rewrite !prepare_one; repeat split; assumption.
        - unfold test. destruct s as [|x|[? x] y]; cbn; repeat split; assumption. }
      destruct N as (N1 & N2 & N3 & M & T & V & Te). destruct (IH (called A t c) N1 N2 N3) as (I0 & I1 & I2 & I3 & I4 & I5 & I6).
      rewrite M in *. rewrite T in I1. rewrite V in I2. rewrite Te in I3. repeat split; assumption. }
    intros t. destruct (G cs (new_trainer A m tr va te) eq_refl eq_refl eq_refl) as (_ & H). exact H.
  Qed.

  (** What a test uses: of the given loader, as many batches as an epoch of training has. *)
  Theorem C80_test : forall t l e, sort l <> Infinite ->
    snd (test A t (One A l) e) = map (Batch A) (firstn (n_train A t) (finite_pass A l e)) /\
    (length (snd (test A t (One A l) e)) = length (finite_pass A l e) <-> length (finite_pass A l e) <= n_train A t).
  Proof.
    intros t l e K. assert (E : snd (test A t (One A l) e) = map (Batch A) (firstn (n_train A t) (finite_pass A l e))).
    { unfold test. cbn. unfold first_batches. destruct (sort l); [reflexivity | contradiction | reflexivity]. }
    split; [exact E |]. rewrite E, map_length, firstn_length. lia.
  Qed.

  (** Finding: without an argument the trainer's own test loader is not used: the loss function gets no data. *)
  Theorem C80_own_test_refuted : forall t e, snd (test A t (Absent A) e) = repeat (Nothing A) (n_train A t).
  Proof. reflexivity. Qed.

  (** ** Several processes *)
  Lemma in_every : forall w r (xs : list A) x, In x (every A w r xs) <-> exists i, i < length xs /\ i mod w = r /\ nth_error xs i = Some x.
  Proof.
    intros w r xs x. unfold every. rewrite in_map_iff.
    assert (C : forall (xs : list A) s i y, In (i, y) (combine (seq s (length xs)) xs) <-> s <= i /\ nth_error xs (i - s) = Some y).
    { clear. induction xs as [|z xs IH]; intros s i y; cbn [length seq combine].
      - split; [intros [] | intros [_ H]; destruct (i - s); discriminate H].
      - split.
        + intros [[= <- <-] | H]; [split; [lia | rewrite Nat.sub_diag; reflexivity] |]. apply IH in H. destruct H as [H1 H2].
          split; [lia |]. replace (i - s) with (S (i - S s)) by lia. exact H2.
        + intros [H1 H2]. destruct (Nat.eq_dec i s) as [-> | N]; [left; rewrite Nat.sub_diag in H2; simpl in H2; congruence |].
          right. apply IH. split; [lia |]. replace (i - s) with (S (i - S s)) in H2 by lia. exact H2. }
    split.
    - intros ([i y] & <- & H). apply filter_In in H. destruct H as [H M]. apply C in H. destruct H as [_ H]. rewrite Nat.sub_0_r in H.
      exists i. split; [apply nth_error_Some; rewrite H; discriminate |]. split; [apply Nat.eqb_eq, M | exact H].
    - intros (i & L & M & H). exists (i, x). split; [reflexivity |]. apply filter_In. split; [apply C; rewrite Nat.sub_0_r; split; [lia | exact H] | apply Nat.eqb_eq, M].
  Qed.
  Lemma concat_repeat_length : forall (xs : list A) k, length (concat (repeat xs k)) = k * length xs.
  Proof. intros xs k; induction k as [|k IH]; [reflexivity |]. cbn [repeat concat]. rewrite app_length, IH. lia. Qed.
  Lemma padded_prefix : forall w (xs : list A) i, 0 < w -> i < length xs -> nth_error (firstn ((length xs + w - 1) / w * w) (concat (repeat xs w))) i = nth_error xs i.
  Proof.
    intros w xs i Hw Hi. assert (Q : length xs <= (length xs + w - 1) / w * w).
    { pose proof (Nat.div_mod (length xs + w - 1) w ltac:(lia)). pose proof (Nat.mod_upper_bound (length xs + w - 1) w ltac:(lia)). nia. }
    destruct w as [|w]; [lia |]. cbn [repeat concat]. set (m := (length xs + S w - 1) / S w * S w) in *.
    rewrite firstn_app. rewrite nth_error_app1 by (rewrite firstn_length; lia). rewrite firstn_all2 by lia. reflexivity.
  Qed.
  Lemma padded_length : forall w (xs : list A), 0 < w -> length (firstn ((length xs + w - 1) / w * w) (concat (repeat xs w))) = (length xs + w - 1) / w * w.
  Proof.
    intros w xs Hw. rewrite firstn_length, concat_repeat_length. apply Nat.min_l.
    assert ((length xs + w - 1) / w <= length xs); [| nia]. destruct (length xs) as [|n]; [rewrite Nat.div_small by lia; lia |].
    apply Nat.div_le_upper_bound; nia.
  Qed.
  Lemma every_length : forall w r q (xs : list A), r < w -> length xs = q * w -> length (every A w r xs) = q.
  Proof.
    intros w r q xs Hr L. unfold every. rewrite map_length.
    assert (G : forall q s (xs : list A), s mod w = 0 -> length xs = q * w -> length (filter (fun ix : nat * A => fst ix mod w =? r) (combine (seq s (length xs)) xs)) = q).
    { clear xs q L. induction q as [|q IH]; intros s xs S L; [destruct xs; [reflexivity | discriminate L] |].
      rewrite <- (firstn_skipn w xs). set (a := firstn w xs). set (b := skipn w xs).
      assert (La : length a = w) by (subst a; rewrite firstn_length; lia). assert (Lb : length b = q * w) by (subst b; rewrite skipn_length; lia).
      rewrite app_length, seq_app.
      assert (Ca : forall (p1 p2 : list nat) (q1 q2 : list A), length p1 = length q1 -> combine (p1 ++ p2) (q1 ++ q2) = combine p1 q1 ++ combine p2 q2).
      { clear. induction p1 as [|x p1 IH]; intros p2 [|y q1] q2 H; simpl in *; try discriminate; [reflexivity |]. f_equal. apply IH. lia. }
      rewrite Ca by (rewrite seq_length; reflexivity). rewrite filter_app, app_length. rewrite (IH (s + length a) b); [| rewrite La; replace (s + w) with (s + 1 * w) by lia; rewrite Nat.mod_add by lia; exact S | exact Lb].
      assert (F : forall (a : list A) j, j + length a = w -> length (filter (fun ix : nat * A => fst ix mod w =? r) (combine (seq (s + j) (length a)) a)) = if (j <=? r) then (if r <? w then 1 else 0) else 0).
      { clear - S Hr. induction a as [|y a IH]; intros j Hj.
        - simpl in *. destruct (Nat.leb_spec j r); [lia | reflexivity].
        - cbn [length seq combine filter fst]. replace (Datatypes.S (s + j)) with (s + Datatypes.S j) by lia. simpl length in Hj.
          assert (M : (s + j) mod w = j). { rewrite Nat.add_mod by lia. rewrite S, Nat.add_0_l, Nat.mod_mod by lia. apply Nat.mod_small. lia. }
          rewrite M. destruct (Nat.eqb_spec j r) as [-> | N].
          + cbn [length]. rewrite IH by lia. destruct (Nat.leb_spec (Datatypes.S r) r); [lia |]. rewrite Nat.leb_refl. destruct (Nat.ltb_spec r w); [reflexivity | lia].
          + rewrite IH by lia. destruct (Nat.leb_spec (Datatypes.S j) r), (Nat.leb_spec j r); try lia; reflexivity. }
      specialize (F a 0). rewrite Nat.add_0_r in F. rewrite F by (simpl; exact La). simpl. destruct (Nat.ltb_spec r w); lia. }
    apply G; [apply Nat.mod_0_l; lia | exact L].
  Qed.

  (** If the local ranks of the [w] processes are 0, ..., w-1 (one node), then in every epoch every sample is used by
      some process, and all processes use the same number of samples, in at most as many batches as one process would. *)
  Theorem C80_processes : forall w sh l e, 1 < w -> 0 < batch_size l -> sort l = Tensors -> Permutation (sh (dataset l)) (dataset l) ->
    let used r := concat (first_batches A (num_batches A None (One A (prepare_loader A w r sh l))) (prepare_loader A w r sh l) e) in
    (forall x, In x (dataset l) -> exists r, r < w /\ In x (used r)) /\
    (forall r, r < w -> length (used r) = (length (dataset l) + w - 1) / w) /\
    (forall r x, r < w -> In x (used r) -> In x (dataset l)).
  Proof.
    intros w sh l e Hw Hb K P used.
    assert (U : forall r, r < w -> used r = shard A w r (sh (dataset l))).
    { intros r Hr. subst used. cbn beta. unfold prepare_loader. destruct (Nat.ltb_spec 1 w); [| lia]. rewrite K.
      unfold first_batches, num_batches, count_of, finite_pass. cbn [M_Batches.sort M_Batches.dataset M_Batches.order M_Batches.batch_size M_Batches.drop_last].
      rewrite firstn_all2; [apply chunks_concat; [exact Hb | lia] |].
      rewrite chunks_length by (try exact Hb; lia). apply Nat.div_le_mono; [lia |].
      assert (length (shard A w r (sh (dataset l))) <= length (dataset l)); [| lia].
      unfold shard. rewrite (every_length w r ((length (sh (dataset l)) + w - 1) / w)); [| exact Hr | apply padded_length; lia].
      rewrite (Permutation_length P). destruct (length (dataset l)) as [|n]; [rewrite Nat.div_small by lia; lia |]. apply Nat.div_le_upper_bound; nia. }
    split; [| split].
    - intros x Hx. apply (Permutation_in x (Permutation_sym P)) in Hx. apply In_nth_error in Hx. destruct Hx as [i Hi].
      assert (Li : i < length (sh (dataset l))) by (apply nth_error_Some; rewrite Hi; discriminate).
      exists (i mod w). assert (Hr : i mod w < w) by (apply Nat.mod_upper_bound; lia). split; [exact Hr |]. rewrite U by exact Hr. unfold shard. apply in_every.
      exists i. split; [| split; [reflexivity | rewrite padded_prefix by lia; exact Hi]].
      apply nth_error_Some. rewrite padded_prefix by lia. rewrite Hi. discriminate.
    - intros r Hr. rewrite U by exact Hr. unfold shard. rewrite (every_length w r ((length (sh (dataset l)) + w - 1) / w)); [| exact Hr | apply padded_length; lia].
      rewrite (Permutation_length P). reflexivity.
    - intros r x Hr Hx. rewrite U in Hx by exact Hr. unfold shard in Hx. apply in_every in Hx. destruct Hx as (i & _ & _ & Hx). apply nth_error_In in Hx.
      apply (Permutation_in x P). assert (S : forall k (ys : list A), In x (firstn k ys) -> In x ys).
      { clear. intros k ys H. rewrite <- (firstn_skipn k ys). apply in_or_app. left. exact H. }
      apply S in Hx. apply in_concat in Hx. destruct Hx as (y & Hy & Hx). apply repeat_spec in Hy. subst y. exact Hx.
  Qed.

  (** Finding: prepared for several processes, a loader gives the same batches in every epoch, whatever shuffling the
      user asked for. *)
  Theorem C80_reshuffle_refuted : forall w r sh l m e e', 1 < w -> sort l <> Infinite ->
    let l' := prepare_loader A w r sh l in first_batches A (num_batches A m (One A l')) l' e = first_batches A (num_batches A m (One A l')) l' e'.
  Proof. intros w r sh l m e e' Hw K. unfold prepare_loader. destruct (Nat.ltb_spec 1 w); [| lia]. destruct (sort l); [reflexivity | contradiction | reflexivity]. Qed.
End Properties.

(** Finding: a test of three batches after a training of one uses only the first. *)
Definition plain (k : kind) (xs : list nat) (b : nat) : loader nat := {| sort := k; dataset := xs; order := fun _ => xs; batch_size := b; drop_last := false |}.
Theorem C80_test_refuted : snd (test nat (new_trainer nat None (One nat (plain Tensors [1; 2] 2)) (Absent nat) (Absent nat)) (One nat (plain Tensors [3; 4; 5; 6; 7] 2)) 0) = [Batch nat [3; 4]].
Proof. reflexivity. Qed.

(** Finding: in a DictDataLoader the first loader decides: with an infinite one in front of a TensorDataset only the first
    batch of the latter is used, in the other order all of them. *)
Theorem C80_dict_refuted :
  batch_iter nat (Dict nat ("a"%string, plain Infinite [0] 1) [("b"%string, plain Tensors [1; 2; 3] 1)]) (num_batches nat None (Dict nat ("a"%string, plain Infinite [0] 1) [("b"%string, plain Tensors [1; 2; 3] 1)])) 0
    = [Keyed nat [("a"%string, [0]); ("b"%string, [1])]] /\
  length (batch_iter nat (Dict nat ("b"%string, plain Tensors [1; 2; 3] 1) [("a"%string, plain Infinite [0] 1)]) (num_batches nat None (Dict nat ("b"%string, plain Tensors [1; 2; 3] 1) [("a"%string, plain Infinite [0] 1)])) 0) = 3.
Proof. split; reflexivity. Qed.

(** Finding: over two nodes of two processes each, the sampler is given the local ranks 0, 1, 0, 1 of four: half of the
    samples are never used. *)
Theorem C80_nodes_refuted : forall r e, In r [0; 1; 0; 1] ->
  let l := prepare_loader nat 4 r (fun xs => xs) (plain Tensors [10; 11; 12; 13] 1) in
  ~ In 12 (concat (first_batches nat (num_batches nat None (One nat l)) l e)) /\ ~ In 13 (concat (first_batches nat (num_batches nat None (One nat l)) l e)).
Proof. intros r e [<- | [<- | [<- | [<- | []]]]]; cbn; split; intros [H | []]; discriminate H. Qed.

(** Finding: with several processes drop_last is not respected. *)
Theorem C80_drop_last_refuted : exists l : loader nat, drop_last nat l = true /\ batch_size nat l = 2 /\
  let l' := prepare_loader nat 2 0 (fun xs => xs) l in In [5] (first_batches nat (num_batches nat None (One nat l')) l' 0).
Proof.
  exists {| sort := Tensors; dataset := [1; 2; 3; 4; 5; 6]; order := fun _ => [1; 2; 3; 4; 5; 6]; batch_size := 2; drop_last := true |}.
  split; [reflexivity |]. split; [reflexivity |]. cbn. right. left. reflexivity.
Qed.

Example plain_is_fair : fair nat (plain Tensors [3; 4; 5; 6; 7] 2) /\ sort nat (plain Tensors [3; 4; 5; 6; 7] 2) = Tensors /\
  first_batches nat 3 (plain Tensors [3; 4; 5; 6; 7] 2) 0 = [[3; 4]; [5; 6]; [7]].
Proof. split; [split; [cbn; lia | intros e; apply Permutation_refl] |]. split; reflexivity. Qed.

Print Assumptions C80_epoch.
Print Assumptions C80_max.
Print Assumptions C80_drop_last.
Print Assumptions C80_infinite.
Print Assumptions C80_dict.
Print Assumptions C80_history.
Print Assumptions C80_test.
Print Assumptions C80_processes.
