(** C32: early stopping. *)
From Coq Require Import List Bool Arith Lia QArith.
From Verif Require Import M_EarlyStop.
Import ListNotations.
Open Scope nat_scope.

(** ** Specification *)
(** "v is strictly better than u", for a mode. *)
Definition better (m : mode) (v u : fl) : bool := match m with MMin => flt v u | MMax => flt u v | MOther => false end.
Definition worst (m : mode) : fl := match m with MMin => PosInf | _ => NegInf end.
Definition is_num (v : fl) : Prop := v <> NaN.
(** Evaluation [v] after the evaluations [past] improves: it is a number, strictly better than every earlier number and than the worst possible value. *)
Definition improvement (m : mode) (past : list fl) (v : fl) : Prop :=
  better m v (worst m) = true /\ forall u, In u past -> is_num u -> better m v u = true.
(** The last [p] evaluations of [h] exist and none of them improved on what was before. *)
Definition stagnated (m : mode) (p : nat) (h : list fl) : Prop :=
  p <= length h /\ forall a v b, h = a ++ v :: b -> length b < p -> ~ improvement m a v.
(** [b] is the best value of [h] (the worst possible value if there is none). *)
Definition is_best (m : mode) (h : list fl) (b : fl) : Prop :=
  (b = worst m \/ In b h) /\ is_num b /\ forall u, In u h -> is_num u -> better m u b = false.

(** ** Order facts *)
Lemma flt_irrefl a : flt a a = false.
Proof. destruct a; try reflexivity. simpl. apply negb_false_iff. apply Qle_bool_iff, Qle_refl. Qed.
Lemma qlt_iff x y : negb (Qle_bool y x) = true <-> (x < y)%Q.
Proof. rewrite negb_true_iff. split; [intros H; apply Qnot_le_lt; intros L; apply Qle_bool_iff in L; congruence|]. intros H. destruct (Qle_bool y x) eqn:E; [|reflexivity]. apply Qle_bool_iff in E. exfalso. apply (Qlt_not_le _ _ H E). Qed.
Lemma flt_trans a b c : flt a b = true -> flt b c = true -> flt a c = true.
Proof. destruct a, b, c; simpl; try congruence. rewrite !qlt_iff. apply Qlt_trans. Qed.
Lemma flt_total a b c : is_num b -> flt a c = true -> flt a b = false -> flt b c = true.
Proof.
  intros Hb. destruct a, b, c; simpl; try congruence; try (intros _ _; reflexivity); try (unfold is_num in Hb; congruence).
  rewrite negb_false_iff, !qlt_iff, Qle_bool_iff. intros H1 H2. eapply Qle_lt_trans; eassumption.
Qed.
Lemma flt_total' a b c : is_num b -> flt c a = true -> flt b a = false -> flt c b = true.
Proof.
  intros Hb. destruct a, b, c; simpl; try congruence; try (intros _ _; reflexivity); try (unfold is_num in Hb; congruence).
  rewrite negb_false_iff, !qlt_iff, Qle_bool_iff. intros H1 H2. eapply Qlt_le_trans; eassumption.
Qed.
Lemma better_irrefl m a : better m a a = false.
Proof. destruct m; [apply flt_irrefl|apply flt_irrefl|reflexivity]. Qed.
Lemma better_trans m a b c : better m a b = true -> better m b c = true -> better m a c = true.
Proof. destruct m; simpl; [apply flt_trans|intros H1 H2; eapply flt_trans; eassumption|discriminate]. Qed.
(** if a beats c and b (a number) is not beaten by a ... b beats c *)
Lemma better_total m a b c : is_num b -> better m a c = true -> better m a b = false -> better m b c = true.
Proof. destruct m; simpl; [apply flt_total| |discriminate]. intros Hb H1 H2. eapply flt_total'; eassumption. Qed.
Lemma better_num m a b : better m a b = true -> is_num a.
Proof. destruct m; simpl; destruct a, b; simpl; intros H E; try discriminate. Qed.

(** The running best decides improvement. *)
Lemma best_improves m h b v : is_best m h b -> (better m v b = true <-> improvement m h v).
Proof.
  intros (B1 & B2 & B3). split.
  - intros H. pose proof (better_num _ _ _ H) as Hv. split.
    + destruct (better m v (worst m)) eqn:E; [reflexivity|]. exfalso.
      assert (Hw : is_num (worst m)) by (destruct m; discriminate).
      assert (N : better m (worst m) b = true) by (eapply better_total; eassumption).
      destruct m; simpl in N; destruct b; discriminate.
    + intros u Hu Hn. destruct (better m v u) eqn:E; [reflexivity|]. pose proof (better_total m v u b Hn H E) as N. rewrite (B3 u Hu Hn) in N. discriminate.
  - intros [H1 H2]. destruct B1 as [-> | B1]; [exact H1|]. apply H2; assumption.
Qed.
Lemma best_step m h b v : is_best m h b -> is_best m (h ++ [v]) (if better m v b then v else b).
Proof.
  intros (B1 & B2 & B3). destruct (better m v b) eqn:E.
  - split; [right; apply in_or_app; right; left; reflexivity|]. split; [eapply better_num; exact E|]. intros u Hu Hn. apply in_app_or in Hu as [Hu|[<-|[]]]; [|apply better_irrefl].
    destruct (better m u v) eqn:Q; [|reflexivity]. pose proof (better_trans m u v b Q E) as T. rewrite (B3 u Hu Hn) in T. discriminate.
  - split; [destruct B1 as [B1|B1]; [left; exact B1|right; apply in_or_app; left; exact B1]|]. split; [exact B2|]. intros u Hu Hn. apply in_app_or in Hu as [Hu|[<-|[]]]; [apply B3; assumption|exact E].
Qed.

Lemma snoc_inv {A} (h : list A) v a u b : h ++ [v] = a ++ u :: b -> (b = [] /\ a = h /\ u = v) \/ exists b', b = b' ++ [v] /\ h = a ++ u :: b'.
Proof.
  intros E. destruct b as [|x b] using rev_ind.
  - apply app_inj_tail in E as [-> ->]. auto.
  - right. rewrite app_comm_cons, app_assoc in E. apply app_inj_tail in E as [-> ->]. exists b. auto.
Qed.
(** [counter] counts the evaluations since the last improvement. *)
Definition counts (m : mode) (h : list fl) (c : nat) : Prop :=
  c <= length h /\ (forall a v b, h = a ++ v :: b -> length b < c -> ~ improvement m a v) /\
  (c < length h -> exists a v b, h = a ++ v :: b /\ length b = c /\ improvement m a v).
Lemma counts_stagnated m h c p : counts m h c -> (p <= c <-> stagnated m p h).
Proof.
  intros (C1 & C2 & C3). split.
  - intros H. split; [lia|]. intros a v b E L. apply (C2 a v b E). lia.
  - intros [L H]. destruct (le_lt_dec p c); [assumption|]. destruct C3 as (a & v & b & E & Lb & I); [lia|]. destruct (H a v b E ltac:(lia) I).
Qed.
Lemma history_inv m p h : forall past s, es_mode s = m -> patience s = p -> is_best m past (best_value s) -> counts m past (counter s) ->
  let '(s', bs) := es_history s h in
  es_mode s' = m /\ patience s' = p /\ is_best m (past ++ h) (best_value s') /\ counts m (past ++ h) (counter s') /\ length bs = length h /\
  forall i, i < length h -> (nth i bs false = true <-> stagnated m p (past ++ firstn (S i) h)).
Proof.
  induction h as [|v h IH]; intros past s Hm Hp Hb Hc; cbn [es_history].
  - rewrite app_nil_r. split; [exact Hm|]. split; [exact Hp|]. split; [exact Hb|]. split; [exact Hc|]. split; [reflexivity|]. simpl. intros; lia.
  - unfold es_run. rewrite Hm. change (match m with MMin => flt v (best_value s) | MMax => flt (best_value s) v | MOther => false end) with (better m v (best_value s)).
    set (s1 := if better m v (best_value s) then _ else _).
    assert (Hm1 : es_mode s1 = m) by (unfold s1; destruct (better m v (best_value s)); reflexivity).
    assert (Hp1 : patience s1 = p) by (unfold s1; destruct (better m v (best_value s)); exact Hp).
    assert (Hb1 : is_best m (past ++ [v]) (best_value s1)).
    { pose proof (best_step m past (best_value s) v Hb) as B. unfold s1. destruct (better m v (best_value s)); exact B. }
    assert (Hc1 : counts m (past ++ [v]) (counter s1)).
    { pose proof (best_improves m past (best_value s) v Hb) as BI. destruct Hc as (C1 & C2 & C3). unfold s1. destruct (better m v (best_value s)) eqn:E; cbn [counter].
      - split; [lia|]. split; [intros; lia|]. intros _. exists past, v, []. split; [reflexivity|]. split; [reflexivity|]. apply BI. reflexivity.
      - assert (N : ~ improvement m past v) by (rewrite <- BI; congruence). unfold counts. rewrite app_length; simpl. split; [lia|]. split.
        + intros a u b E' L. apply snoc_inv in E' as [(-> & -> & ->)|(b' & -> & E')]; [exact N|]. apply (C2 a u b' E'). rewrite app_length in L. simpl in L. lia.
        + intros L. destruct C3 as (a & u & b & -> & Lb & I); [lia|]. exists a, u, (b ++ [v]). rewrite <- app_assoc. split; [reflexivity|]. rewrite app_length. simpl. split; [lia|exact I]. }
    specialize (IH (past ++ [v]) s1 Hm1 Hp1 Hb1 Hc1). destruct (es_history s1 h) as [s2 bs]. destruct IH as (M2 & P2 & B2 & C2 & L2 & I2).
    rewrite <- app_assoc in B2, C2. simpl in B2, C2. split; [exact M2|]. split; [exact P2|]. split; [exact B2|]. split; [exact C2|]. split; [simpl; lia|].
    intros [|i] Hi.
    + simpl. rewrite Nat.leb_le, Hp1. apply counts_stagnated, Hc1.
    + simpl nth. rewrite I2 by (simpl in Hi; lia). rewrite <- app_assoc. reflexivity.
Qed.

(** For every mode, patience and history: the i-th evaluation requests a stop exactly when the last [patience] evaluations up to it all failed to improve; the stored best
    value is the running optimum. *)
Theorem C32_early_stopping : forall m p h,
  let '(s, requests) := es_history (es_init m p) h in
  length requests = length h /\ is_best m h (best_value s) /\
  forall i, i < length h -> (nth i requests false = true <-> stagnated m p (firstn (S i) h)).
Proof.
  intros m p h. pose proof (history_inv m p h [] (es_init m p) eq_refl eq_refl) as H.
  destruct (es_history (es_init m p) h) as [s bs]. destruct H as (_ & _ & B & _ & L & I).
  - split; [left; reflexivity|]. split; [destruct m; discriminate|]. intros u [].
  - split; [simpl; lia|]. split; [intros [|] ? ? E; discriminate|]. simpl. lia.
  - auto.
Qed.
(** The first request therefore completes the first [patience] consecutive evaluations without improvement. *)
Theorem C32_first_request : forall m p h i, p <> 0 -> i < length h ->
  nth i (snd (es_history (es_init m p) h)) false = true ->
  (forall j, j < i -> nth j (snd (es_history (es_init m p) h)) false = false) ->
  stagnated m p (firstn (S i) h) /\ forall j, j < i -> ~ stagnated m p (firstn (S j) h).
Proof.
  intros m p h i Hp Hi Hr Hf. pose proof (C32_early_stopping m p h) as H. destruct (es_history (es_init m p) h) as [s bs]. destruct H as (L & _ & H). cbn [snd] in *.
  split; [apply H; assumption|]. intros j Hj S. apply H in S; [|lia]. rewrite Hf in S by exact Hj. discriminate.
Qed.
(** A missing metric is an error, never a silent continuation. *)
Theorem C32_missing_metric : forall s, es_run s None = None. Proof. reflexivity. Qed.
(** Finding: a mode other than "min" and "max" is accepted; then nothing ever counts as an improvement and the run is stopped at evaluation [patience]
    whatever the metric does. *)
Theorem C32_mode_refuted : forall p h i, i < length h -> (nth i (snd (es_history (es_init MOther p) h)) false = true <-> p <= S i).
Proof.
  intros p h i Hi. pose proof (C32_early_stopping MOther p h) as H. destruct (es_history (es_init MOther p) h) as [s bs]. destruct H as (L & _ & H). cbn [snd]. rewrite (H i Hi).
  unfold stagnated. rewrite firstn_length, Nat.min_l by lia. split; [tauto|]. intros Hp. split; [exact Hp|]. intros a v b _ _ [E _]. discriminate.
Qed.

Definition hist : list fl := [Fin 5; Fin 3; Fin 3; NaN; Fin 4; Fin 1].
Example C32_witness : snd (es_history (es_init MMin 3) hist) = [false; false; false; false; true; false] /\ stagnated MMin 3 (firstn 5 hist) /\
  best_value (fst (es_history (es_init MMin 3) hist)) = Fin 1.
Proof.
  split; [reflexivity|]. split; [|reflexivity]. pose proof (C32_early_stopping MMin 3 hist) as H. cbn in H. destruct H as (_ & _ & H). apply (H 4); [lia|reflexivity].
Qed.
Print Assumptions C32_early_stopping.
Print Assumptions C32_first_request.
Print Assumptions C32_missing_metric.
Print Assumptions C32_mode_refuted.
