(** C31: callbacks fire exactly when configured. *)
From Coq Require Import List Arith Bool ZArith Lia Sorted.
From Verif Require Import M_Trainer M_Callbacks P_Trainer.
Import ListNotations.

(** ** Specification *)
(** When the function of a callback must run, in words of the documentation. *)
Definition due (cb : callback) (when : stage) (o : optres) : Prop :=
  on cb = when /\ (when = Start PTrain \/ when = End PTrain \/
     (called_every cb <> 0 /\ iteration o <> 0 /\ (called_every cb | iteration o) /\ condition cb o = true)%Z).

Lemma peqb_iff a b : M_Callbacks.phase_eqb a b = true <-> a = b.
Proof. destruct a, b; simpl; split; congruence. Qed.
Lemma seqb_iff a b : stage_eqb a b = true <-> a = b.
Proof. destruct a, b; simpl; split; try congruence; rewrite ?peqb_iff; congruence. Qed.

Lemma call_due cb when o : call cb when o = true <-> due cb when (modify cb o).
Proof.
  unfold call, due. destruct (stage_eqb (on cb) when) eqn:E.
  - apply seqb_iff in E. unfold should_call. destruct (stage_eqb when (Start PTrain)) eqn:E1; [apply seqb_iff in E1; simpl; tauto|].
    destruct (stage_eqb when (End PTrain)) eqn:E2; [apply seqb_iff in E2; simpl; tauto|]. simpl.
    assert (N1 : when <> Start PTrain) by (rewrite <- seqb_iff; congruence). assert (N2 : when <> End PTrain) by (rewrite <- seqb_iff; congruence).
    destruct (Z.eqb_spec (called_every cb) 0) as [Z0|Z0]; [simpl; split; [discriminate|tauto]|]. simpl.
    destruct (Z.eqb_spec (iteration (modify cb o)) 0) as [I0|I0]; [split; [discriminate|tauto]|].
    rewrite Z.eqb_sym. destruct (Z.eqb_spec 0 (iteration (modify cb o) mod called_every cb)) as [M|M]; simpl.
    + symmetry in M. apply Z.mod_divide in M; [|exact Z0]. destruct (condition cb (modify cb o)); split; try discriminate; tauto.
    + split; [discriminate|]. intros (_ & [H|[H|(_ & _ & D & _)]]); try congruence. apply Z.mod_divide in D; congruence.
  - split; [discriminate|]. intros (H & _). apply seqb_iff in H. congruence.
Qed.

(** At one stage: exactly the due callbacks run, in the order of registration. *)
Lemma run_from_spec cbs when o : forall k i, In i (run_from k cbs when o) <-> exists j cb, i = k + j /\ nth_error cbs j = Some cb /\ call cb when o = true.
Proof.
  induction cbs as [|cb cbs IH]; intros k i; cbn [run_from]; [split; [intros []|intros ([|j] & cb & _ & H & _); discriminate]|].
  rewrite in_app_iff, IH. split.
  - intros [H|(j & cb' & -> & H & C)].
    + destruct (stage_eqb (on cb) when); [|destruct H]. destruct (call cb when o) eqn:C; [|destruct H]. destruct H as [<-|[]]. exists 0, cb. split; [lia|auto].
    + exists (S j), cb'. split; [lia|auto].
  - intros ([|j] & cb' & -> & H & C).
    + injection H as <-. left. unfold call in C. destruct (stage_eqb (on cb) when) eqn:E; [|discriminate]. unfold call. rewrite E, C. left. lia.
    + right. exists j, cb'. split; [lia|auto].
Qed.
Lemma run_from_ge cbs when o : forall k i, In i (run_from k cbs when o) -> k <= i.
Proof. intros k i H. apply run_from_spec in H as (j & _ & -> & _). lia. Qed.
Lemma run_from_sorted cbs when o : forall k, StronglySorted lt (run_from k cbs when o).
Proof.
  induction cbs as [|cb cbs IH]; intros k; cbn [run_from]; [constructor|].
  destruct (stage_eqb (on cb) when); [|apply IH]. destruct (call cb when o); [|apply IH]. simpl. constructor; [apply IH|].
  apply Forall_forall. intros x H. apply run_from_ge in H. lia.
Qed.
Theorem C31_run_callbacks : forall cbs when o,
  StronglySorted lt (run_callbacks cbs when o) /\
  forall i, In i (run_callbacks cbs when o) <-> exists cb, nth_error cbs i = Some cb /\ due cb when (modify cb o).
Proof.
  intros cbs when o. split; [apply run_from_sorted|]. intros i. unfold run_callbacks. rewrite run_from_spec. split.
  - intros (j & cb & -> & H & C). exists cb. split; [exact H|apply call_due, C].
  - intros (cb & H & C). exists i, cb. split; [reflexivity|]. split; [exact H|apply call_due, C].
Qed.

(** ** Over a whole run *)
(** At the end of a phase callbacks see the current epoch, whatever callbacks and steps do. *)
Section Seen.
  Variable w : world.
  Definition end_ok (x : entry) : Prop := match x with Ev e => match ev_stage e with End _ => ev_seen e = ev_epoch e | Start _ => True end | Work _ => True end.
  Definition sane (s : tstate) : Prop := Forall end_ok (trace s).
  Definition ksane (body : tstate -> res) : Prop := forall s, sane s -> sane (st_of (body s)).
  Lemma sane_happen x s : end_ok x -> sane s -> sane (st_of (happen w x s)).
  Proof. intros H S. unfold happen. destruct (r_raise _); cbn [st_of]; unfold sane; simpl; apply Forall_app; split; auto. Qed.
  Lemma sane_bind r f : sane (st_of r) -> ksane f -> sane (st_of (bind r f)).
  Proof. destruct r as [s|x s]; intros H K; [apply K, H|exact H]. Qed.
  Lemma ksane_wrap p f : ksane f -> ksane (wrap w p f).
  Proof.
    intros K s S. unfold wrap. apply sane_bind; [apply sane_happen; [exact I|exact S]|]. intros s1 S1. apply sane_bind; [apply K, S1|].
    intros s2 S2. apply sane_happen; [reflexivity|exact S2].
  Qed.
  Lemma ksane_repeat n f : ksane f -> ksane (repeat_body n f).
  Proof. intros K. induction n as [|n IH]; intros s S; [exact S|]. cbn [repeat_body]. apply sane_bind; [apply K, S|exact IH]. Qed.
  Lemma ksane_work : ksane (work w). Proof. intros s S. apply sane_happen; [exact I|exact S]. Qed.
  Lemma ksane_training n : ksane (run_training w n).
  Proof. apply ksane_wrap, ksane_repeat, ksane_wrap, ksane_work. Qed.
  Lemma ksane_validation n : ksane (run_validation w n).
  Proof. apply ksane_wrap, ksane_repeat, ksane_wrap, ksane_work. Qed.
  Lemma ksane_epochs v nt nv es : ksane (train_epochs w v nt nv es).
  Proof.
    induction es as [|e es IH]; intros s S; [exact S|]. cbn [train_epochs]. destruct (negb (stop s)); [|exact S].
    assert (P : sane (st_of (epoch_body w v nt nv e s))).
    { unfold epoch_body. apply sane_bind; [apply ksane_training, S|]. intros s' S'. destruct (_ && _); [apply ksane_validation, S'|exact S']. }
    destruct (epoch_body w v nt nv e s) as [s'|[|] s']; [apply IH, P|apply IH, P|exact P].
  Qed.
  Lemma fit_sane mi v nt nv gs e0 : sane (st_of (fit w mi v nt nv gs e0)).
  Proof.
    unfold fit. apply sane_bind.
    - destruct (perform_val v); [apply ksane_validation|]; constructor.
    - apply ksane_wrap, ksane_epochs.
  Qed.
End Seen.

(** The result a callback sees at the end of a phase is that of the current epoch. *)
Theorem C31_end_sees_current : forall w max_iter val_every n_train n_val gs e0 e p,
  In (Ev e) (trace (st_of (fit w max_iter val_every n_train n_val gs e0))) -> ev_stage e = End p -> ev_seen e = ev_epoch e.
Proof.
  intros w mi v nt nv gs e0 e p H Hp. pose proof (fit_sane w mi v nt nv gs e0) as S. unfold sane in S. rewrite Forall_forall in S.
  specialize (S _ H). simpl in S. rewrite Hp in S. exact S.
Qed.

(** Over every run that does not raise, a callback registered for the end of training epochs with a condition on the iteration runs exactly at the executed epochs that are
    positive multiples of [called_every] and satisfy its condition, in order, once each. *)
Definition epoch_due (cb : callback) (cond : Z -> bool) (e : nat) : bool :=
  negb (Nat.eqb e 0) && negb (Z.eqb (called_every cb) 0) && Z.eqb (Z.of_nat e mod called_every cb) 0 && cond (Z.of_nat e).
Definition pick (f : nat -> bool) (l : list (stage * nat)) : list nat :=
  flat_map (fun se => match fst se with End PTrainEpoch => if f (snd se) then [snd se] else [] | _ => [] end) l.
Lemma pick_app f a b : pick f (a ++ b) = pick f a ++ pick f b. Proof. apply flat_map_app. Qed.
Lemma pick_times f n p e : p <> PTrainEpoch -> pick f (times n (batch p e)) = [].
Proof. intros H. induction n as [|n IH]; [reflexivity|]. cbn [times]. rewrite pick_app, IH. destruct p; try congruence; reflexivity. Qed.
Lemma pick_validation f n e : pick f (validation_stages n e) = [].
Proof. unfold validation_stages. change (pick f ((Start PValEpoch, e) :: times n (batch PValBatch e) ++ [(End PValEpoch, e)])) with (pick f (times n (batch PValBatch e) ++ [(End PValEpoch, e)])). rewrite pick_app, pick_times by discriminate. reflexivity. Qed.
Lemma pick_epoch f v nt nv e : pick f (epoch_stages v nt nv e) = if f e then [e] else [].
Proof.
  unfold epoch_stages, training_stages. rewrite pick_app. replace (pick f (if (0 <? v) && (e mod v =? 0) then validation_stages nv e else [])) with (@nil nat) by (destruct (_ && _); [rewrite pick_validation|]; reflexivity).
  cbn [app]. change (pick f ((Start PTrainEpoch, e) :: times nt (batch PTrainBatch e) ++ [(End PTrainEpoch, e)])) with (pick f (times nt (batch PTrainBatch e) ++ [(End PTrainEpoch, e)])). rewrite pick_app, pick_times by discriminate. simpl. rewrite !app_nil_r. reflexivity.
Qed.
Lemma pick_epochs f v nt nv es : pick f (flat_map (epoch_stages v nt nv) es) = filter f es.
Proof. induction es as [|e es IH]; [reflexivity|]. cbn [flat_map filter]. rewrite pick_app, pick_epoch, IH. destruct (f e); reflexivity. Qed.

Lemma calls_pick cb cond data tr : on cb = End PTrainEpoch -> (forall o, modify cb o = o) -> (forall o, condition cb o = cond (iteration o)) ->
  Forall end_ok tr -> calls cb data tr = pick (epoch_due cb cond) (stages tr).
Proof.
  intros Ho Hm Hc. induction tr as [|[e|n] tr IH]; intros F; [reflexivity| |].
  - inversion F as [|? ? F1 F2]; subst. cbn [calls stages flat_map]. change (flat_map _ tr) with (calls cb data tr) at 1. rewrite IH by exact F2.
    change (pick (epoch_due cb cond) ([(ev_stage e, ev_epoch e)] ++ stages tr)) with (pick (epoch_due cb cond) ([(ev_stage e, ev_epoch e)] ++ stages tr)). rewrite pick_app. f_equal.
    unfold call. rewrite Ho. destruct (ev_stage e) as [p|p] eqn:Ep; [reflexivity|]. simpl in F1. rewrite Ep in F1. destruct p; try reflexivity.
    simpl. rewrite app_nil_r, Hm. unfold should_call, epoch_due. simpl. rewrite Hc. simpl. rewrite F1.
    destruct (Z.eqb_spec (called_every cb) 0) as [Z0|Z0]; simpl; [rewrite andb_false_r; reflexivity|].
    destruct (ev_epoch e) as [|k]; [reflexivity|]. cbn [Nat.eqb negb andb]. destruct (Z.eqb_spec (Z.of_nat (S k)) 0); [lia|]. destruct (_ && _); reflexivity.
  - inversion F; subst. cbn [calls stages flat_map app]. apply IH. assumption.
Qed.
Theorem C31_epoch_end_run : forall w max_iter val_every n_train n_val gs e0 cb cond data, never_raises w ->
  on cb = End PTrainEpoch -> (forall o, modify cb o = o) -> (forall o, condition cb o = cond (iteration o)) ->
  exists s k, fit w max_iter val_every n_train n_val gs e0 = Ok s /\
    filter (fun se => match fst se with Start PTrainEpoch => true | _ => false end) (stages (trace s)) = map (fun e => (Start PTrainEpoch, e)) (seq gs k) /\
    calls cb data (trace s) = filter (fun e => negb (Nat.eqb e 0) && negb (Z.eqb (called_every cb) 0) && Z.eqb (Z.of_nat e mod called_every cb) 0 && cond (Z.of_nat e)) (seq gs k).
Proof.
  intros w mi v nt nv gs e0 cb cond data Hw Ho Hm Hc. destruct (C30_run w mi v nt nv gs e0 Hw) as (s & k & E & _ & (last & L) & _). exists s, k. split; [exact E|]. split.
  - fold is_epoch_start. rewrite L, !filter_app, count_val, count_epochs. simpl. rewrite app_nil_r. reflexivity.
  - rewrite (calls_pick cb cond data (trace s) Ho Hm Hc).
    + rewrite L, !pick_app, pick_epochs. replace (pick (epoch_due cb cond) (if 0 <? v then validation_stages nv e0 else [])) with (@nil nat) by (destruct (0 <? v); [rewrite pick_validation|]; reflexivity). simpl. apply app_nil_r.
    + pose proof (fit_sane w mi v nt nv gs e0) as S. rewrite E in S. exact S.
Qed.

(** Finding: a callback registered for the start of epochs looks at the result of the previous epoch, so with called_every = 2
    it runs at the start of epochs 3, 5, ... and not at 2, 4, ... *)
Definition start_cb : callback := {| on := Start PTrainEpoch; called_every := 2; condition := fun _ => true; modify := fun o => o |}.
Theorem C31_epoch_start_refuted : exists s, fit quiet 6 0 1 0 0 0 = Ok s /\
  calls start_cb (fun _ => 0) (trace s) = [3; 5] /\ ~ calls start_cb (fun _ => 0) (trace s) = filter (fun e => negb (Nat.eqb e 0) && Nat.even e) (seq 0 7).
Proof. exists (st_of (fit quiet 6 0 1 0 0 0)). split; [vm_compute; reflexivity|]. split; [vm_compute; reflexivity|]. vm_compute. discriminate. Qed.

Definition end_cb : callback := {| on := End PTrainEpoch; called_every := 3; condition := fun o => Z.ltb (iteration o) 8; modify := fun o => o |}.
Example C31_witness : exists s, fit quiet 10 4 2 1 0 0 = Ok s /\ calls end_cb (fun _ => 0) (trace s) = [3; 6] /\
  run_callbacks [start_cb; end_cb; end_cb; start_cb] (End PTrainEpoch) {| iteration := 6; opt_data := 0 |} = [1; 2].
Proof. exists (st_of (fit quiet 10 4 2 1 0 0)). split; [vm_compute; reflexivity|]. split; vm_compute; reflexivity. Qed.

Print Assumptions C31_run_callbacks.
Print Assumptions C31_end_sees_current.
Print Assumptions C31_epoch_end_run.
Print Assumptions C31_epoch_start_refuted.
