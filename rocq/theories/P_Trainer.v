(** C30: the training loop. *)
From Coq Require Import List Arith Bool Lia.
From Verif Require Import M_Trainer.
Import ListNotations.

(** ** Specification: the stages of a run *)
Definition stages (tr : list entry) : list (stage * nat) :=
  flat_map (fun x => match x with Ev e => [(ev_stage e, ev_epoch e)] | Work _ => [] end) tr.
Definition batch (p : phase) (e : nat) : list (stage * nat) := [(Start p, e); (End p, e)].
Fixpoint times {A} (n : nat) (l : list A) : list A := match n with O => [] | S m => l ++ times m l end.
Definition training_stages (n_train e : nat) : list (stage * nat) :=
  (Start PTrainEpoch, e) :: times n_train (batch PTrainBatch e) ++ [(End PTrainEpoch, e)].
Definition validation_stages (n_val e : nat) : list (stage * nat) :=
  (Start PValEpoch, e) :: times n_val (batch PValBatch e) ++ [(End PValEpoch, e)].
(** One epoch: training on all batches, then validation if [val_every] divides the epoch number. *)
Definition epoch_stages (val_every n_train n_val e : nat) : list (stage * nat) :=
  training_stages n_train e ++ (if Nat.ltb 0 val_every && Nat.eqb (e mod val_every) 0 then validation_stages n_val e else []).
(** Well-bracketed: every end closes the last open start. *)
Definition phase_eqb (a b : phase) : bool :=
  match a, b with PTrain, PTrain | PTrainEpoch, PTrainEpoch | PTrainBatch, PTrainBatch | PValEpoch, PValEpoch | PValBatch, PValBatch => true | _, _ => false end.
Fixpoint brackets (open : list phase) (l : list stage) : option (list phase) :=
  match l with
  | [] => Some open
  | Start p :: r => brackets (p :: open) r
  | End p :: r => match open with q :: o => if phase_eqb p q then brackets o r else None | [] => None end
  end.
Definition well_bracketed (l : list stage) : Prop := brackets [] l = Some [].

(** The run requests a stop at some point of [tr]. *)
Definition asks_stop (w : world) (tr : list entry) : Prop := exists a b, tr = a ++ b /\ a <> [] /\ r_stop (w a) = true.
Definition never_raises (w : world) : Prop := forall tr, r_raise (w tr) = None.
Definition st_of (r : res) : tstate := match r with Ok s => s | Raised _ s => s end.

Lemma split_either {A} (t1 t2 a b : list A) : t1 ++ t2 = a ++ b -> (exists c, t1 = a ++ c /\ b = c ++ t2) \/ (exists c, c <> [] /\ a = t1 ++ c /\ t2 = c ++ b).
Proof.
  revert a. induction t1 as [|x t1 IH]; intros a E.
  - destruct a as [|y a]; [left; exists []; auto|right; exists (y :: a); split; [discriminate|auto]].
  - destruct a as [|y a]; [left; exists (x :: t1); auto|]. simpl in E. injection E as <- E. destruct (IH a E) as [(c & -> & ->)|(c & Hc & -> & ->)].
    + left. exists c. auto.
    + right. exists c. auto.
Qed.

(** ** Runs only extend the trace; the stop flag records exactly the requests. *)
Section Runs.
  Variable w : world.
  Hypothesis Hw : never_raises w.

  (** A piece of the run that emits the stages [f] (given the current epoch) and keeps the current epoch. *)
  Definition emits (body : tstate -> res) (l : nat -> list (stage * nat)) : Prop :=
    forall s, exists s', body s = Ok s' /\ current_epoch s' = current_epoch s /\
      exists t, trace s' = trace s ++ t /\ stages t = l (current_epoch s) /\
      (stop s' = true <-> stop s = true \/ exists a b, t = a ++ b /\ a <> [] /\ r_stop (w (trace s ++ a)) = true).

  Lemma happen_emits x s : exists s', happen w x s = Ok s' /\ current_epoch s' = current_epoch s /\ trace s' = trace s ++ [x] /\
    (stop s' = true <-> stop s = true \/ r_stop (w (trace s ++ [x])) = true).
  Proof. unfold happen. rewrite Hw. eexists. split; [reflexivity|]. simpl. split; [reflexivity|]. split; [reflexivity|]. apply orb_true_iff. Qed.

  Lemma single_split {A} (x : A) a b : [x] = a ++ b -> a <> [] -> a = [x] /\ b = [].
  Proof. destruct a as [|y a]; [congruence|]. simpl. intros E _. injection E as -> E. symmetry in E. apply app_eq_nil in E as [-> ->]. auto. Qed.

  Lemma stages_app a b : stages (a ++ b) = stages a ++ stages b.
  Proof. unfold stages. rewrite flat_map_app. reflexivity. Qed.

  Lemma emits_happen (f : tstate -> entry) (l : nat -> list (stage * nat)) : (forall s, stages [f s] = l (current_epoch s)) -> emits (fun s => happen w (f s) s) l.
  Proof.
    intros Hf s. destruct (happen_emits (f s) s) as (s' & E & C & T & S). exists s'. split; [exact E|]. split; [exact C|].
    exists [f s]. split; [exact T|]. split; [apply Hf|]. rewrite S. split.
    - intros [H|H]; [left; exact H|right]. exists [f s], []. split; [reflexivity|]. split; [discriminate|exact H].
    - intros [H|(a & b & E' & Ha & H)]; [left; exact H|right]. destruct (single_split _ _ _ E' Ha) as [-> _]. exact H.
  Qed.
  Lemma emits_announce st : emits (announce w st) (fun e => [(st, e)]).
  Proof. apply (emits_happen (fun s => Ev {| ev_stage := st; ev_epoch := current_epoch s; ev_seen := opt_iter s |})). reflexivity. Qed.
  Lemma emits_work : emits (work w) (fun _ => []).
  Proof. apply (emits_happen (fun s => Work (current_epoch s))). reflexivity. Qed.
  Lemma emits_seq f g lf lg : emits f lf -> emits g lg -> emits (fun s => bind (f s) g) (fun e => lf e ++ lg e).
  Proof.
    intros Hf Hg s. destruct (Hf s) as (s1 & E1 & C1 & t1 & T1 & L1 & S1). destruct (Hg s1) as (s2 & E2 & C2 & t2 & T2 & L2 & S2).
    exists s2. rewrite E1. simpl. split; [exact E2|]. split; [congruence|]. exists (t1 ++ t2). split; [rewrite T2, T1, app_assoc; reflexivity|].
    split; [rewrite stages_app, L1, L2, C1; reflexivity|]. rewrite S2, S1, T1. split.
    - intros [[H|(a & b & -> & Ha & H)]|(a & b & -> & Ha & H)]; [left; exact H| |].
      + right. exists a, (b ++ t2). split; [apply app_assoc_reverse|]. auto.
      + right. exists (t1 ++ a), b. split; [rewrite app_assoc; reflexivity|]. split; [destruct t1; [exact Ha|discriminate]|]. rewrite app_assoc. exact H.
    - intros [H|(a & b & E & Ha & H)]; [left; left; exact H|].
      destruct (split_either _ _ _ _ E) as [(c & -> & ->)|(c & Hc & -> & ->)].
      + left. right. exists a, c. auto.
      + right. exists c, b. split; [reflexivity|]. split; [exact Hc|]. rewrite <- app_assoc. exact H.
  Qed.
  Lemma emits_ext f g l l' : (forall s, f s = g s) -> (forall e, l e = l' e) -> emits f l -> emits g l'.
  Proof. intros Hf Hl H s. destruct (H s) as (s' & E & C & t & T & L & S). exists s'. rewrite <- Hf, <- Hl. split; [exact E|]. split; [exact C|]. exists t. auto. Qed.
  Lemma emits_build f l : emits f l -> emits (fun s => f (build_optimize_result s)) l.
  Proof. intros H s. exact (H (build_optimize_result s)). Qed.
  Lemma emits_ok : emits Ok (fun _ => []).
  Proof.
    intros s. exists s. split; [reflexivity|]. split; [reflexivity|]. exists []. rewrite app_nil_r. split; [reflexivity|]. split; [reflexivity|].
    split; [auto|]. intros [H|(a & b & E & Ha & _)]; [exact H|]. symmetry in E. apply app_eq_nil in E as [-> _]. congruence.
  Qed.
  Lemma emits_wrap p f l : emits f l -> emits (wrap w p f) (fun e => (Start p, e) :: l e ++ [(End p, e)]).
  Proof.
    intros H. unfold wrap. refine (emits_ext _ _ _ _ (fun s => eq_refl) (fun e => eq_refl) (emits_seq _ _ (fun e => [(Start p, e)]) (fun e => l e ++ [(End p, e)]) (emits_announce _) _)).
    apply (emits_seq f (fun s => announce w (End p) (build_optimize_result s)) l (fun e => [(End p, e)])); [exact H|]. apply emits_build, emits_announce.
  Qed.
  Lemma emits_repeat n f l : emits f l -> emits (repeat_body n f) (fun e => times n (l e)).
  Proof. intros H. induction n as [|n IH]; [exact emits_ok|]. cbn [repeat_body times]. apply (emits_seq f (repeat_body n f) l); assumption. Qed.
  Lemma emits_training n : emits (run_training w n) (training_stages n).
  Proof. apply (emits_wrap PTrainEpoch), emits_repeat. exact (emits_wrap PTrainBatch _ _ emits_work). Qed.
  Lemma emits_validation n : emits (run_validation w n) (validation_stages n).
  Proof. apply (emits_wrap PValEpoch), emits_repeat. exact (emits_wrap PValBatch _ _ emits_work). Qed.

  Variables max_iter val_every n_train n_val : nat.
  (** One epoch from any state. *)
  Lemma epoch_emits e s : exists s', epoch_body w val_every n_train n_val e s = Ok s' /\
    exists t, trace s' = trace s ++ t /\ stages t = epoch_stages val_every n_train n_val e /\
      (stop s' = true <-> stop s = true \/ exists a b, t = a ++ b /\ a <> [] /\ r_stop (w (trace s ++ a)) = true).
  Proof.
    unfold epoch_body, epoch_stages. set (s0 := {| stop := stop s; current_epoch := e; opt_iter := opt_iter s; trace := trace s |}).
    assert (H : emits (fun s => bind (run_training w n_train s) (fun s => if perform_val val_every && (e mod val_every =? 0) then run_validation w n_val s else Ok s))
       (fun e' => training_stages n_train e' ++ (if perform_val val_every && (e mod val_every =? 0) then validation_stages n_val e' else []))).
    { apply emits_seq; [apply emits_training|]. destruct (perform_val val_every && (e mod val_every =? 0)); [apply emits_validation|apply emits_ok]. }
    destruct (H s0) as (s' & E & _ & t & T & L & S). exists s'. split; [exact E|]. exists t. auto.
  Qed.
  (** The loop runs epochs until one of them (or something earlier) requests a stop. *)
  Lemma epochs_emit es : forall s, exists s' k, train_epochs w val_every n_train n_val es s = Ok s' /\ k <= length es /\
    exists t, trace s' = trace s ++ t /\ stages t = flat_map (epoch_stages val_every n_train n_val) (firstn k es) /\
      (stop s' = true <-> stop s = true \/ exists a b, t = a ++ b /\ a <> [] /\ r_stop (w (trace s ++ a)) = true) /\
      (k < length es -> stop s' = true) /\
      (forall j, j < k -> exists a b, t = a ++ b /\ stages a = flat_map (epoch_stages val_every n_train n_val) (firstn j es) /\
          stop s = false /\ forall a1 a2, a = a1 ++ a2 -> a1 <> [] -> r_stop (w (trace s ++ a1)) = false).
  Proof.
    induction es as [|e es IH]; intros s.
    - exists s, 0. split; [reflexivity|]. split; [simpl; lia|]. exists []. rewrite app_nil_r. split; [reflexivity|]. split; [reflexivity|]. split; [|split; [simpl; lia|intros; lia]].
      split; [auto|]. intros [H|(a & b & E & Ha & _)]; [exact H|]. symmetry in E. apply app_eq_nil in E as [-> _]. congruence.
    - cbn [train_epochs]. destruct (stop s) eqn:Es; cbn [negb].
      + exists s, 0. split; [reflexivity|]. split; [lia|]. exists []. rewrite app_nil_r. split; [reflexivity|]. split; [reflexivity|]. split; [|split; [auto|intros; lia]].
        split; auto.
      + destruct (epoch_emits e s) as (s1 & E1 & t1 & T1 & L1 & S1). rewrite E1.
        destruct (IH s1) as (s2 & k & E2 & Hk & t2 & T2 & L2 & S2 & F2 & P2). exists s2, (S k). split; [exact E2|]. split; [simpl; lia|].
        exists (t1 ++ t2). split; [rewrite T2, T1, app_assoc; reflexivity|]. split; [rewrite stages_app, L1, L2; reflexivity|].
        assert (SS : stop s2 = true <-> false = true \/ exists a b, t1 ++ t2 = a ++ b /\ a <> [] /\ r_stop (w (trace s ++ a)) = true).
        { rewrite S2, S1, T1, Es. split.
          - intros [[H|(a & b & -> & Ha & H)]|(a & b & -> & Ha & H)]; [left; exact H| |].
            + right. exists a, (b ++ t2). split; [apply app_assoc_reverse|]. auto.
            + right. exists (t1 ++ a), b. split; [rewrite app_assoc; reflexivity|]. split; [destruct t1; [exact Ha|discriminate]|]. rewrite app_assoc. exact H.
          - intros [H|(a & b & E & Ha & H)]; [discriminate|].
            destruct (split_either _ _ _ _ E) as [(c & -> & ->)|(c & Hc & -> & ->)].
            + left. right. exists a, c. auto.
            + right. exists c, b. split; [reflexivity|]. split; [exact Hc|]. rewrite <- app_assoc. exact H. }
        split; [exact SS|]. split; [intros H; apply F2; simpl in H; lia|].
        intros [|j] Hj.
        * exists [], (t1 ++ t2). split; [reflexivity|]. split; [reflexivity|]. split; [reflexivity|]. intros a1 a2 E Ha. symmetry in E. apply app_eq_nil in E as [-> _]. congruence.
        * destruct (P2 j ltac:(lia)) as (a & b & -> & La & Sf & Ha). exists (t1 ++ a), b. split; [apply app_assoc|]. split; [rewrite stages_app, L1, La; reflexivity|].
          split; [reflexivity|]. intros a1 a2 E Hne.
          destruct (r_stop (w (trace s ++ a1))) eqn:R; [|reflexivity]. exfalso.
          destruct (split_either _ _ _ _ E) as [(c & -> & ->)|(c & Hc & -> & ->)].
          -- assert (stop s1 = true); [|congruence]. rewrite S1. right. exists a1, c. auto.
          -- rewrite app_assoc, <- T1 in R. rewrite (Ha c a2 eq_refl Hc) in R. discriminate.
  Qed.
End Runs.

(** ** Theorems *)

(** When neither callbacks nor steps raise, a run is: an initial validation (if enabled), train_start, [k] consecutive
    complete epochs starting at [global_step], train_end.  All [max_iter + 1] epochs are run unless a stop is requested; an epoch is started
    only if nothing before it requested a stop. *)
Theorem C30_run : forall w max_iter val_every n_train n_val gs e0, never_raises w ->
  exists s k, fit w max_iter val_every n_train n_val gs e0 = Ok s /\ (k <= max_iter + 1)%nat /\
    (exists last, stages (trace s) =
      (if Nat.ltb 0 val_every then validation_stages n_val e0 else []) ++ [(Start PTrain, e0)] ++
      flat_map (epoch_stages val_every n_train n_val) (seq gs k) ++ [(End PTrain, last)]) /\
    (k < max_iter + 1 -> asks_stop w (trace s)) /\
    (forall j, j < k -> exists a b, trace s = a ++ b /\
        stages a = (if Nat.ltb 0 val_every then validation_stages n_val e0 else []) ++ [(Start PTrain, e0)] ++ flat_map (epoch_stages val_every n_train n_val) (seq gs j) /\
        ~ asks_stop w a).
Proof.
  intros w max_iter val_every n_train n_val gs e0 Hw. unfold fit, train.
  set (s00 := {| stop := false; current_epoch := e0; opt_iter := gs; trace := [] |}).
  assert (HV : emits w (fun s => if perform_val val_every then run_validation w n_val s else Ok s) (fun e => if Nat.ltb 0 val_every then validation_stages n_val e else [])).
  { unfold perform_val. destruct (0 <? val_every); [apply emits_validation, Hw|apply emits_ok]. }
  destruct (emits_seq w _ _ _ _ HV (emits_announce w Hw (Start PTrain)) s00) as (s0 & E0 & C0 & t0 & T0 & L0 & S0).
  set (es := seq gs (gs + max_iter + 1 - gs)). assert (Hes : length es = max_iter + 1) by (unfold es; rewrite seq_length; lia).
  destruct (epochs_emit w Hw val_every n_train n_val es s0) as (s1 & k & E1 & Hk & t1 & T1 & L1 & S1 & F1 & P1).
  destruct (emits_announce w Hw (End PTrain) (build_optimize_result s1)) as (s2 & E2 & C2 & t2 & T2 & L2 & S2).
  assert (Hfit : bind (if perform_val val_every then run_validation w n_val s00 else Ok s00) (fun s => wrap w PTrain (train_epochs w val_every n_train n_val es) s) = Ok s2).
  { cbv beta in E0. destruct (if perform_val val_every then run_validation w n_val s00 else Ok s00) as [s|x s]; [|discriminate]. cbn [bind] in *.
    unfold wrap. rewrite E0. cbn [bind]. rewrite E1. cbn [bind]. exact E2. }
  assert (Hseq : forall j, j <= k -> firstn j es = seq gs j).
  { intros j Hj. unfold es. rewrite Hes in Hk. replace (gs + max_iter + 1 - gs) with (j + (max_iter + 1 - j)) by lia. rewrite seq_app, firstn_app, seq_length, Nat.sub_diag, firstn_O, app_nil_r.
    rewrite <- (seq_length j gs) at 1. apply firstn_all. }
  assert (Tr : trace s2 = t0 ++ t1 ++ t2) by (simpl in T2; rewrite T2, T1, T0; simpl; rewrite app_assoc; reflexivity).
  exists s2, k. split; [exact Hfit|]. split; [lia|]. split; [|split].
  - exists (current_epoch s1). rewrite Tr, !stages_app, L0, L1, L2. simpl. rewrite Hseq by lia. rewrite <- app_assoc. reflexivity.
  - intros Hlt. assert (H : stop s1 = true) by (apply F1; lia). rewrite S1, S0 in H. simpl in H. unfold asks_stop. rewrite Tr.
    destruct H as [[H|(a & b & E & Ha & H)]|(a & b & E & Ha & H)]; [discriminate| |].
    + exists a, (b ++ t1 ++ t2). subst t0. rewrite <- app_assoc. auto.
    + exists (t0 ++ a), (b ++ t2). subst t1. rewrite <- !app_assoc. split; [reflexivity|]. split; [destruct t0; [exact Ha|discriminate]|].
      rewrite T0 in H. simpl in H. exact H.
  - intros j Hj. destruct (P1 j Hj) as (a & b & Eab & La & Sf & Ha). exists (t0 ++ a), (b ++ t2). rewrite Tr, Eab, <- !app_assoc. split; [reflexivity|].
    split; [rewrite stages_app, L0, La, Hseq by lia; simpl; rewrite <- app_assoc; reflexivity|].
    intros (c & d & E & Hc & R). destruct (split_either _ _ _ _ E) as [(c' & -> & ->)|(c' & Hc' & -> & ->)].
    + assert (stop s0 = true); [|congruence]. rewrite S0. right. exists c, c'. auto.
    + specialize (Ha c' d eq_refl Hc'). rewrite T0 in Ha. simpl in Ha. rewrite Ha in R. discriminate.
Qed.

(** Nothing asks to stop: every configured run performs max_iter + 1 epochs, one more than configured. *)
Definition quiet : world := fun _ => {| r_stop := false; r_raise := None |}.
Definition epochs_started (tr : list entry) : nat := length (filter (fun se => match fst se with Start PTrainEpoch => true | _ => false end) (stages tr)).
Lemma count_times n p e f : (forall x, In x (batch p e) -> f x = false) -> filter f (times n (batch p e)) = [].
Proof. intros H. induction n as [|n IH]; [reflexivity|]. cbn [times]. rewrite filter_app, IH, app_nil_r. simpl. rewrite !H by (simpl; auto). reflexivity. Qed.
Definition is_epoch_start (se : stage * nat) : bool := match fst se with Start PTrainEpoch => true | _ => false end.
Lemma count_epoch v nt nv e : filter is_epoch_start (epoch_stages v nt nv e) = [(Start PTrainEpoch, e)].
Proof.
  unfold epoch_stages, training_stages, validation_stages. rewrite filter_app. cbn [filter is_epoch_start fst]. rewrite filter_app, count_times by (intros x [<-|[<-|[]]]; reflexivity). simpl.
  destruct (_ && _); [|reflexivity]. cbn [filter is_epoch_start fst]. rewrite filter_app, count_times by (intros x [<-|[<-|[]]]; reflexivity). reflexivity.
Qed.
Lemma count_epochs v nt nv es : filter is_epoch_start (flat_map (epoch_stages v nt nv) es) = map (fun e => (Start PTrainEpoch, e)) es.
Proof. induction es as [|e es IH]; [reflexivity|]. cbn [flat_map map]. rewrite filter_app, count_epoch, IH. reflexivity. Qed.
Lemma count_val v n e : filter is_epoch_start (if Nat.ltb 0 v then validation_stages n e else []) = [].
Proof. destruct (0 <? v); [|reflexivity]. unfold validation_stages. cbn [filter is_epoch_start fst]. rewrite filter_app, count_times by (intros x [<-|[<-|[]]]; reflexivity). reflexivity. Qed.

Theorem C30_epoch_count_refuted : forall max_iter val_every n_train n_val gs e0, exists s,
  fit quiet max_iter val_every n_train n_val gs e0 = Ok s /\ epochs_started (trace s) = S max_iter.
Proof.
  intros max_iter v nt nv gs e0. destruct (C30_run quiet max_iter v nt nv gs e0) as (s & k & E & Hk & (last & L) & Hs & _); [intros tr; reflexivity|].
  exists s. split; [exact E|]. assert (k = max_iter + 1) as ->.
  { destruct (Nat.eq_dec k (max_iter + 1)); [assumption|]. exfalso. destruct Hs as (a & b & _ & _ & H); [lia|]. discriminate. }
  unfold epochs_started. fold is_epoch_start. rewrite L, !filter_app, count_val, count_epochs. simpl. rewrite app_nil_r, map_length, seq_length. lia.
Qed.

(** Bracketing and the number of train_start / train_end announcements. *)
Lemma phase_eqb_refl p : phase_eqb p p = true. Proof. destruct p; reflexivity. Qed.
Lemma brackets_app l1 l2 o : brackets o (l1 ++ l2) = match brackets o l1 with Some o' => brackets o' l2 | None => None end.
Proof.
  revert o. induction l1 as [|[p|p] l1 IH]; intros o; [reflexivity|apply IH|]. cbn [app brackets]. destruct o as [|q o]; [reflexivity|].
  destruct (phase_eqb p q); [apply IH|reflexivity].
Qed.
Lemma brackets_times n p e o : brackets o (map fst (times n (batch p e))) = Some o.
Proof. induction n as [|n IH]; [reflexivity|]. cbn [times batch map app fst brackets]. rewrite phase_eqb_refl. exact IH. Qed.
Lemma brackets_training n e o : brackets o (map fst (training_stages n e)) = Some o.
Proof. unfold training_stages. cbn [map fst brackets]. rewrite map_app, brackets_app, brackets_times. reflexivity. Qed.
Lemma brackets_validation n e o : brackets o (map fst (validation_stages n e)) = Some o.
Proof. unfold validation_stages. cbn [map fst brackets]. rewrite map_app, brackets_app, brackets_times. reflexivity. Qed.
Lemma brackets_epochs v nt nv es o : brackets o (map fst (flat_map (epoch_stages v nt nv) es)) = Some o.
Proof.
  induction es as [|e es IH]; [reflexivity|]. cbn [flat_map]. unfold epoch_stages at 1. rewrite !map_app, !brackets_app, brackets_training.
  destruct (_ && _); [rewrite brackets_validation|]; exact IH.
Qed.
Definition count_stage (p : phase) (start : bool) (tr : list entry) : nat :=
  length (filter (fun se => match fst se with Start q => start && phase_eqb p q | End q => negb start && phase_eqb p q end) (stages tr)).

Theorem C30_brackets : forall w max_iter val_every n_train n_val gs e0, never_raises w ->
  exists s, fit w max_iter val_every n_train n_val gs e0 = Ok s /\ well_bracketed (map fst (stages (trace s))) /\
    count_stage PTrain true (trace s) = 1 /\ count_stage PTrain false (trace s) = 1.
Proof.
  intros w mi v nt nv gs e0 Hw. destruct (C30_run w mi v nt nv gs e0 Hw) as (s & k & E & _ & (last & L) & _). exists s. split; [exact E|]. split.
  - unfold well_bracketed. rewrite L, map_app, brackets_app. replace (brackets [] (map fst (if 0 <? v then validation_stages nv e0 else []))) with (Some (@nil phase)) by (destruct (0 <? v); [rewrite brackets_validation|]; reflexivity).
    cbn [app map fst brackets]. rewrite map_app, brackets_app, brackets_epochs. reflexivity.
  - assert (Z : forall b l, (forall se, In se l -> match fst se with Start q | End q => q <> PTrain end) ->
       filter (fun se : stage * nat => match fst se with Start q => b && phase_eqb PTrain q | End q => negb b && phase_eqb PTrain q end) l = []).
    { intros b l. induction l as [|[[q|q] n] l IH]; intros H; [reflexivity| |]; simpl; pose proof (H _ (or_introl eq_refl)) as Hq; simpl in Hq; destruct q; try congruence; simpl; rewrite andb_false_r; apply IH; intros; apply H; right; assumption. }
    assert (ZT : forall n p e, p <> PTrain -> forall se, In se (times n (batch p e)) -> match fst se with Start q | End q => q <> PTrain end).
    { intros n p e Hp. induction n as [|n IH]; [intros se []|]. cbn [times]. intros se H. apply in_app_or in H as [[<-|[<-|[]]]|H]; [exact Hp|exact Hp|apply IH, H]. }
    assert (ZV : forall n e se, In se (validation_stages n e) -> match fst se with Start q | End q => q <> PTrain end).
    { intros n e se [<-|H]; [discriminate|]. apply in_app_or in H as [H|[<-|[]]]; [|discriminate]. eapply ZT; [|exact H]. discriminate. }
    assert (ZE : forall es se, In se (flat_map (epoch_stages v nt nv) es) -> match fst se with Start q | End q => q <> PTrain end).
    { intros es se H. apply in_flat_map in H as (e & _ & H). unfold epoch_stages in H. apply in_app_or in H as [[<-|H]|H]; [discriminate| |].
      - apply in_app_or in H as [H|[<-|[]]]; [|discriminate]. eapply ZT; [|exact H]. discriminate.
      - destruct (_ && _); [eapply ZV, H|destruct H]. }
    unfold count_stage. rewrite L. assert (ZI : forall se, In se (if 0 <? v then validation_stages nv e0 else []) -> match fst se with Start q | End q => q <> PTrain end) by (destruct (0 <? v); [apply ZV|intros se []]).
    split; rewrite !filter_app, (Z _ _ ZI), (Z _ _ (ZE _)); reflexivity.
Qed.

(** Whatever callbacks and steps do (including raising at any point, e.g. a keyboard interrupt), once a stop has been requested
    or something has raised, no further epoch is started. *)
Definition is_start (x : entry) : Prop := match x with Ev e => ev_stage e = Start PTrainEpoch | Work _ => False end.
Section Safe.
  Variable w : world.
  Definition req (c : list entry) : Prop := r_stop (w c) = true \/ r_raise (w c) <> None.
  Definition safe (tr : list entry) : Prop := forall a x b, tr = a ++ x :: b -> is_start x -> forall c d, a = c ++ d -> c <> [] -> ~ req c.
  Definition good (s : tstate) : Prop := safe (trace s) /\ forall c d, trace s = c ++ d -> c <> [] -> req c -> stop s = true.
  Definition post (r : res) : Prop := match r with Ok s => good s | Raised x s => safe (trace s) /\ r_raise (w (trace s)) = Some x /\ trace s <> [] end.
  Definition keeps (body : tstate -> res) : Prop := forall s, good s -> post (body s).

  Lemma safe_snoc tr x : safe tr -> (is_start x -> forall c d, tr = c ++ d -> c <> [] -> ~ req c) -> safe (tr ++ [x]).
  Proof.
    intros H Hx a y b E Hy c d Ea Hc. destruct (split_either _ _ _ _ E) as [(e & E1 & E2)|(e & He & E1 & E2)].
    - destruct e as [|z e].
      + simpl in E2. injection E2 as -> ->. rewrite app_nil_r in E1. subst tr. apply (Hx Hy c d); auto.
      + simpl in E2. injection E2 as <- ->. apply (H a y e E1 Hy c d Ea Hc).
    - destruct e as [|z e]; [congruence|]. simpl in E2. injection E2 as <- E2. destruct e; discriminate.
  Qed.
  Lemma post_happen x s : good s -> (is_start x -> stop s = false) -> post (happen w x s).
  Proof.
    intros [G1 G2] Hx. unfold happen.
    assert (S : safe (trace s ++ [x])).
    { apply safe_snoc; [exact G1|]. intros Hs c d E Hc R. rewrite (G2 c d E Hc R) in Hx. discriminate (Hx Hs). }
    destruct (r_raise (w (trace s ++ [x]))) as [e|] eqn:R; cbn [post trace].
    - split; [exact S|]. split; [exact R|]. destruct (trace s); discriminate.
    - split; [exact S|]. cbn [trace stop]. intros c d E Hc [Q|Q]; apply orb_true_iff; (destruct (split_either _ _ _ _ E) as [(e & E1 & E2)|(e & He & E1 & E2)]).
      + left. apply (G2 c e E1 Hc). left; exact Q.
      + right. destruct e as [|z e]; [congruence|]. simpl in E2. injection E2 as <- E2. symmetry in E2. apply app_eq_nil in E2 as [-> ->]. rewrite <- E1. exact Q.
      + left. apply (G2 c e E1 Hc). right; exact Q.
      + exfalso. destruct e as [|z e]; [congruence|]. simpl in E2. injection E2 as <- E2. symmetry in E2. apply app_eq_nil in E2 as [-> ->]. rewrite <- E1 in R. congruence.
  Qed.
  Lemma keeps_bind r f : post r -> keeps f -> post (bind r f).
  Proof. destruct r as [s|x s]; intros H K; [apply K, H|exact H]. Qed.
  Lemma good_ext s s' : trace s = trace s' -> stop s = stop s' -> good s -> good s'.
  Proof. intros T S [G1 G2]. unfold good. rewrite <- T, <- S. split; assumption. Qed.
  Lemma keeps_end p body : keeps body -> keeps (fun s => bind (body s) (fun s => announce w (End p) (build_optimize_result s))).
  Proof.
    intros K s G. apply keeps_bind; [apply K, G|]. intros s' G'. apply post_happen; [apply (good_ext s'); auto|]. intros H. discriminate H.
  Qed.
  Lemma keeps_wrap p body : p <> PTrainEpoch -> keeps body -> keeps (wrap w p body).
  Proof. intros Hp K s G. unfold wrap. apply keeps_bind; [apply post_happen; [exact G|intros H; simpl in H; congruence]|]. apply keeps_end, K. Qed.
  Lemma keeps_repeat n body : keeps body -> keeps (repeat_body n body).
  Proof. intros K. induction n as [|n IH]; [intros s G; exact G|]. intros s G. cbn [repeat_body]. apply keeps_bind; [apply K, G|exact IH]. Qed.
  Lemma keeps_work : keeps (work w). Proof. intros s G. apply post_happen; [exact G|intros []]. Qed.
  Lemma keeps_validation n : keeps (run_validation w n).
  Proof. apply keeps_wrap; [discriminate|]. apply keeps_repeat, keeps_wrap; [discriminate|apply keeps_work]. Qed.
  Lemma post_training n s : good s -> stop s = false -> post (run_training w n s).
  Proof.
    intros G S. unfold run_training, wrap. apply keeps_bind; [apply post_happen; auto|]. apply keeps_end, keeps_repeat, keeps_wrap; [discriminate|apply keeps_work].
  Qed.
  Lemma keeps_epochs v nt nv es : keeps (train_epochs w v nt nv es).
  Proof.
    induction es as [|e es IH]; intros s G; [exact G|]. cbn [train_epochs]. destruct (stop s) eqn:S; cbn [negb]; [exact G|].
    assert (P : post (epoch_body w v nt nv e s)).
    { unfold epoch_body. apply keeps_bind.
      - apply post_training; [apply (good_ext s); auto|exact S].
      - intros s' G'. destruct (_ && _); [apply keeps_validation, G'|exact G']. }
    destruct (epoch_body w v nt nv e s) as [s'|[|] s']; [apply IH, P| |exact P].
    apply IH. split; [apply P|reflexivity].
  Qed.
End Safe.

Theorem C30_stop : forall w max_iter val_every n_train n_val gs e0,
  let tr := trace (st_of (fit w max_iter val_every n_train n_val gs e0)) in
  forall before x after, tr = before ++ x :: after -> is_start x ->
  forall c d, before = c ++ d -> c <> [] -> r_stop (w c) = false /\ r_raise (w c) = None.
Proof.
  intros w mi v nt nv gs e0 tr before x after E Hx c d Eb Hc.
  assert (P : post w (fit w mi v nt nv gs e0)).
  { unfold fit. apply keeps_bind.
    - unfold perform_val. assert (G : good w {| stop := false; current_epoch := e0; opt_iter := gs; trace := [] |}).
      { split; [intros a y b Q; destruct a; discriminate|]. intros c' d' Q Hc'. simpl in Q. symmetry in Q. apply app_eq_nil in Q as [-> _]. congruence. }
      destruct (0 <? v); [apply keeps_validation, G|exact G].
    - apply keeps_wrap; [discriminate|apply keeps_epochs]. }
  assert (S : safe w tr) by (unfold tr; destruct (fit w mi v nt nv gs e0); apply P).
  pose proof (S before x after E Hx c d Eb Hc) as N. unfold req in N. split.
  - destruct (r_stop (w c)); [exfalso; apply N; left; reflexivity|reflexivity].
  - destruct (r_raise (w c)); [exfalso; apply N; right; discriminate|reflexivity].
Qed.

(** How a run ends: either it returns, and then its last event is train_end (so a keyboard interrupt during an epoch still leads to an orderly end),
    or it propagates an exception raised by the very last thing that happened; a keyboard interrupt raised inside an epoch is never propagated. *)
Theorem C30_end : forall w max_iter val_every n_train n_val gs e0,
  match fit w max_iter val_every n_train n_val gs e0 with
  | Ok s => exists tr e, trace s = tr ++ [Ev e] /\ ev_stage e = End PTrain
  | Raised x s => trace s <> [] /\ r_raise (w (trace s)) = Some x
  end.
Proof.
  intros w mi v nt nv gs e0.
  assert (P : post w (fit w mi v nt nv gs e0)).
  { unfold fit. apply keeps_bind.
    - unfold perform_val. assert (G : good w {| stop := false; current_epoch := e0; opt_iter := gs; trace := [] |}).
      { split; [intros a y b Q; destruct a; discriminate|]. intros c' d' Q Hc'. simpl in Q. symmetry in Q. apply app_eq_nil in Q as [-> _]. congruence. }
      destruct (0 <? v); [apply keeps_validation, G|exact G].
    - apply keeps_wrap; [discriminate|apply keeps_epochs]. }
  destruct (fit w mi v nt nv gs e0) as [s|x s] eqn:F; [|split; apply P].
  unfold fit in F. destruct (if perform_val v then _ else _) as [s0|x0 s0]; [|discriminate]. cbn [bind] in F. unfold train, wrap in F.
  destruct (announce w (Start PTrain) s0) as [s1|x1 s1]; [|discriminate]. cbn [bind] in F.
  destruct (train_epochs _ _ _ _ _ s1) as [s2|x2 s2]; [|discriminate]. cbn [bind] in F.
  unfold announce, happen in F. destruct (r_raise _); [discriminate|]. injection F as <-. cbn [trace]. eexists _, _. split; [reflexivity|]. reflexivity.
Qed.

(** Example: two batches, validation every 2 epochs, max_iter = 3, a callback asks to stop at the end of epoch 2 (the 3rd one). *)
Definition stop_at_2 : world := fun tr => match rev tr with
  | Ev e :: _ => {| r_stop := match ev_stage e with End PTrainEpoch => Nat.eqb (ev_epoch e) 2 | _ => false end; r_raise := None |}
  | _ => {| r_stop := false; r_raise := None |} end.
Example C30_witness : never_raises stop_at_2 /\ epochs_started (trace (st_of (fit stop_at_2 3 2 2 1 0 0))) = 3 /\
  epochs_started (trace (st_of (fit stop_at_2 1 2 2 1 0 0))) = 2.
Proof. split; [intros tr; unfold stop_at_2; destruct (rev tr) as [|[e|n] l]; reflexivity|]. split; reflexivity. Qed.

Print Assumptions C30_run.
Print Assumptions C30_epoch_count_refuted.
Print Assumptions C30_brackets.
Print Assumptions C30_stop.
Print Assumptions C30_end.
