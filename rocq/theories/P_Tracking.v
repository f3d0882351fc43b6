(** C84: what a user finds in TensorBoard or MLflow after a training. *)
From Coq Require Import String Ascii List Arith Bool ZArith Lia.
From Coq Require Import List.
From Verif Require Import M_Trainer M_Callbacks M_Tracking P_Trainer P_Callbacks.
Import ListNotations.

(** ** Specification *)
(** The epochs whose training was started in a run. *)
Definition epochs_run (tr : list entry) : list nat :=
  flat_map (fun x => match x with Ev e => match ev_stage e with Start PTrainEpoch => [ev_epoch e] | _ => [] end | Work _ => [] end) tr.
(** [write_due c gs e0 k step m]: in a training of the epochs gs, ..., gs + k - 1 by a trainer that was at epoch [e0], the
    metrics [m] are to be written at [step]: those of the training of an epoch at every positive multiple of write_every and
    for the last epoch, those of a validation at every positive multiple of val_every, and those of the validation before
    the training. *)
Definition write_due (c : config) (gs e0 k step : nat) (m : content) : Prop :=
  (m = OfTrain step /\ gs <= step < gs + k /\ 0 < write_every c /\ ((0 < step /\ step mod write_every c = 0) \/ S step = gs + k)) \/
  (m = OfVal false step /\ gs <= step < gs + k /\ 0 < val_every c /\ 0 < step /\ step mod val_every c = 0) \/
  (m = OfVal true step /\ step = e0 /\ 0 < val_every c).
(** The iterations at which figures are made, in order: at the start of the training, at every positive multiple of
    plot_every, at the end. *)
Definition plot_steps (c : config) (gs e0 k : nat) : list nat :=
  [if Nat.ltb 0 (val_every c) then e0 else gs] ++
  filter (fun e => Nat.ltb 0 (plot_every c) && Nat.ltb 0 e && Nat.eqb (e mod plot_every c) 0) (seq gs k) ++
  (if Nat.ltb 0 (plot_every c) then [if Nat.eqb k 0 then e0 else gs + k - 1] else []).
(** No callback of the user writes to the tracker. *)
Definition no_writer (user : list (kind * callback)) : Prop := forall kc, In kc user -> fst kc = KOther.

(** ** What callbacks see, computed from the stages of a run *)
Definition le_step (d : nat) (x : stage * nat) : nat := match fst x with End _ => snd x | Start _ => d end.
Definition last_end (d : nat) (l : list (stage * nat)) : nat := fold_left le_step l d.
Definition seen_at (d : nat) (s : stage) (e : nat) : nat := match s with Start _ => d | End _ => e end.
Fixpoint good (d : nat) (tr : list entry) : Prop :=
  match tr with
  | [] => True
  | Work _ :: r => good d r
  | Ev e :: r => ev_seen e = seen_at d (ev_stage e) (ev_epoch e) /\ good (le_step d (ev_stage e, ev_epoch e)) r
  end.
Lemma good_app a : forall d b, good d (a ++ b) <-> good d a /\ good (last_end d (stages a)) b.
Proof.
  induction a as [|[e|n] a IH]; intros d b; cbn [app good].
  - cbn. tauto.
  - rewrite IH. cbn [stages flat_map app]. change (flat_map _ a) with (stages a). cbn [last_end fold_left]. fold (last_end (le_step d (ev_stage e, ev_epoch e)) (stages a)). tauto.
  - rewrite IH. reflexivity.
Qed.
Lemma last_end_app d a b : last_end d (a ++ b) = last_end (last_end d a) b. Proof. apply fold_left_app. Qed.
Lemma stages_app' a b : stages (a ++ b) = stages a ++ stages b. Proof. apply flat_map_app. Qed.
Definition lastep (d : nat) (l : list (stage * nat)) : nat := fold_left (fun _ x => snd x) l d.
Lemma lastep_app d a b : lastep d (a ++ b) = lastep (lastep d a) b. Proof. apply fold_left_app. Qed.

Section Inv.
  Variable w : world.
  Variables gs e0 : nat.
  Definition inv (s : tstate) : Prop := good gs (trace s) /\ opt_iter s = last_end gs (stages (trace s)).
  Definition here (s : tstate) : Prop := current_epoch s = lastep e0 (stages (trace s)).
  Definition kinv (f : tstate -> res) : Prop := forall s, inv s -> inv (st_of (f s)).
  Definition khere (f : tstate -> res) : Prop := forall s, here s -> here (st_of (f s)).
  Lemma st_happen x s : trace (st_of (happen w x s)) = trace s ++ [x] /\ opt_iter (st_of (happen w x s)) = opt_iter s /\
    current_epoch (st_of (happen w x s)) = current_epoch s.
  Proof. unfold happen. destruct (r_raise _); cbn; auto. Qed.
  Lemma inv_work : kinv (work w).
  Proof.
    intros s (G & O). unfold work. destruct (st_happen (Work (current_epoch s)) s) as (T & Oi & _). unfold inv. rewrite T, Oi, stages_app', good_app. cbn.
    rewrite app_nil_r. auto.
  Qed.
  Lemma here_work : khere (work w).
  Proof. intros s H. unfold work. destruct (st_happen (Work (current_epoch s)) s) as (T & _ & C). unfold here. rewrite T, C, stages_app'. cbn. rewrite app_nil_r. exact H. Qed.
  Lemma inv_start p : kinv (announce w (Start p)).
  Proof.
    intros s (G & O). unfold announce. match goal with |- context [happen w ?x s] => destruct (st_happen x s) as (T & Oi & _) end.
    unfold inv. rewrite T, Oi, stages_app', good_app, last_end_app. cbn. auto.
  Qed.
  Lemma inv_end p : kinv (fun s => announce w (End p) (build_optimize_result s)).
  Proof.
    intros s (G & O). unfold announce. match goal with |- context [happen w ?x ?y] => destruct (st_happen x y) as (T & Oi & _) end.
    unfold inv. rewrite T, Oi, stages_app', good_app, last_end_app. cbn. auto.
  Qed.
  Lemma here_announce st s : here (st_of (announce w st s)).
  Proof. unfold announce. match goal with |- context [happen w ?x ?y] => destruct (st_happen x y) as (T & _ & C) end. unfold here. rewrite T, C, stages_app', lastep_app. reflexivity. Qed.
  Lemma inv_bind r f : inv (st_of r) -> kinv f -> inv (st_of (bind r f)).
  Proof. destruct r; intros H K; [apply K, H|exact H]. Qed.
  Lemma here_bind r f : here (st_of r) -> khere f -> here (st_of (bind r f)).
  Proof. destruct r; intros H K; [apply K, H|exact H]. Qed.
  Lemma inv_wrap p f : kinv f -> kinv (wrap w p f).
  Proof. intros K s I. unfold wrap. apply inv_bind; [apply inv_start, I|]. intros s1 I1. apply inv_bind; [apply K, I1|apply inv_end]. Qed.
  Lemma here_wrap p f s : khere f -> here (st_of (wrap w p f s)).
  Proof. intros K. unfold wrap. apply here_bind; [apply here_announce|]. intros s1 I1. apply here_bind; [apply K, I1|]. intros s2 _. apply here_announce. Qed.
  Lemma inv_repeat n f : kinv f -> kinv (repeat_body n f).
  Proof. intros K. induction n as [|n IH]; intros s S; [exact S|]. cbn [repeat_body]. apply inv_bind; [apply K, S|exact IH]. Qed.
  Lemma here_repeat n f : khere f -> khere (repeat_body n f).
  Proof. intros K. induction n as [|n IH]; intros s S; [exact S|]. cbn [repeat_body]. apply here_bind; [apply K, S|exact IH]. Qed.
  Lemma inv_training n : kinv (run_training w n). Proof. apply inv_wrap, inv_repeat, inv_wrap, inv_work. Qed.
  Lemma inv_validation n : kinv (run_validation w n). Proof. apply inv_wrap, inv_repeat, inv_wrap, inv_work. Qed.
  Lemma here_training n s : here (st_of (run_training w n s)). Proof. apply here_wrap, here_repeat. intros s' _. apply here_wrap, here_work. Qed.
  Lemma here_validation n s : here (st_of (run_validation w n s)). Proof. apply here_wrap, here_repeat. intros s' _. apply here_wrap, here_work. Qed.
  Lemma inv_epochs v nt nv es : kinv (train_epochs w v nt nv es).
  Proof.
    induction es as [|e es IH]; intros s S; [exact S|]. cbn [train_epochs]. destruct (negb (stop s)); [|exact S].
    assert (P : inv (st_of (epoch_body w v nt nv e s))).
    { unfold epoch_body. apply inv_bind; [apply inv_training, S|]. intros s' S'. destruct (_ && _); [apply inv_validation, S'|exact S']. }
    destruct (epoch_body w v nt nv e s) as [s'|[|] s']; [apply IH, P|apply IH, P|exact P].
  Qed.
  Lemma here_epochs v nt nv es : khere (train_epochs w v nt nv es).
  Proof.
    induction es as [|e es IH]; intros s S; [exact S|]. cbn [train_epochs]. destruct (negb (stop s)); [|exact S].
    assert (P : here (st_of (epoch_body w v nt nv e s))).
    { unfold epoch_body. apply here_bind; [apply here_training|]. intros s' S'. destruct (_ && _); [apply here_validation|exact S']. }
    destruct (epoch_body w v nt nv e s) as [s'|[|] s']; [apply IH, P|apply IH, P|exact P].
  Qed.
  Lemma fit_inv mi v nt nv : inv (st_of (fit w mi v nt nv gs e0)).
  Proof.
    unfold fit. apply inv_bind.
    - destruct (perform_val v); [apply inv_validation|]; split; cbn; auto.
    - apply inv_wrap, inv_epochs.
  Qed.
  (** The training ends in the epoch it was in. *)
  Lemma fit_end mi v nt nv s : fit w mi v nt nv gs e0 = Ok s ->
    exists t e, trace s = t ++ [Ev e] /\ ev_stage e = End PTrain /\ ev_epoch e = lastep e0 (stages t).
  Proof.
    unfold fit, train. set (r0 := if perform_val v then _ else _).
    assert (H0 : here (st_of r0)) by (unfold r0; destruct (perform_val v); [apply here_validation|reflexivity]).
    destruct r0 as [s0|x s0]; cbn [bind]; [|discriminate]. unfold wrap.
    pose proof (here_announce (Start PTrain) s0) as H1. destruct (announce w (Start PTrain) s0) as [s1|x s1]; cbn [bind]; [|discriminate].
    pose proof (here_epochs v nt nv (seq gs (gs + mi + 1 - gs)) s1 H1) as H2.
    destruct (train_epochs w v nt nv (seq gs (gs + mi + 1 - gs)) s1) as [s2|x s2]; cbn [bind]; [|discriminate].
    unfold announce. match goal with |- context [happen w ?x ?y] => destruct (st_happen x y) as (T & _ & _); set (ev := x) in * end.
    intros E. rewrite E in T. cbn in T. eexists _, _. split; [exact T|]. split; [reflexivity|]. exact H2.
  Qed.
End Inv.

(** The state of the observation, over stages. *)
Definition pcontent (st : ostate) (s : stage) (e : nat) : content := content_at st {| ev_stage := s; ev_epoch := e; ev_seen := 0 |}.
Definition padv (st : ostate) (s : stage) (e : nat) : ostate :=
  {| cur := pcontent st s e; finished := match s with End PTrainEpoch => Some e | _ => finished st end; started := started st || stage_eqb s (Start PTrain) |}.
Fixpoint pobs (d : nat) (st : ostate) (l : list (stage * nat)) : list obs :=
  match l with [] => [] | (s, e) :: r => (s, seen_at d s e, pcontent st s e) :: pobs (le_step d (s, e)) (padv st s e) r end.
Definition pfold (st : ostate) (l : list (stage * nat)) : ostate := fold_left (fun st x => padv st (fst x) (snd x)) l st.
Lemma pobs_app a : forall d st b, pobs d st (a ++ b) = pobs d st a ++ pobs (last_end d a) (pfold st a) b.
Proof. induction a as [|(s, e) a IH]; intros d st b; [reflexivity|]. cbn [app pobs]. rewrite IH. reflexivity. Qed.
Lemma pfold_app st a b : pfold st (a ++ b) = pfold (pfold st a) b. Proof. apply fold_left_app. Qed.
Lemma observe_pobs w : never_raises w -> forall tr before d st, good d tr -> observe w before tr st = pobs d st (stages tr).
Proof.
  intros Hw. induction tr as [|[e|n] tr IH]; intros before d st G; [reflexivity| |].
  - cbn [good] in G. destruct G as (G1 & G2). cbn [observe stages flat_map app]. change (flat_map _ tr) with (stages tr). cbn [pobs].
    rewrite (IH (before ++ [Ev e]) _ _ G2). rewrite G1. cbn [app]. unfold pcontent, content_at. cbn [ev_stage ev_epoch]. f_equal. f_equal.
    unfold advance, padv. rewrite Hw. unfold pcontent, content_at. cbn [ev_stage ev_epoch]. destruct (ev_stage e) as [[]|[]]; reflexivity.
  - cbn [observe stages flat_map app]. exact (IH (before ++ [Work n]) d st G).
Qed.

Section Relevant.
  Context {B : Type}.
  Variable g : obs -> list B.
  Definition relevant (s : stage) : bool := match s with Start PTrain | End PTrain | End PTrainEpoch | End PValEpoch => true | _ => false end.
  Hypothesis Hg : forall s i m, relevant s = false -> g (s, i, m) = [].
  Notation G d st l := (flat_map g (pobs d st l)).
  Lemma G_batches p e n : p = PTrainBatch \/ p = PValBatch -> forall d st,
    G d st (times n (batch p e)) = [] /\ finished (pfold st (times n (batch p e))) = finished st /\ started (pfold st (times n (batch p e))) = started st.
  Proof.
    intros Hp. induction n as [|n IH]; intros d st; [auto|]. cbn [times]. rewrite pobs_app, pfold_app, flat_map_app.
    destruct (IH (last_end d (batch p e)) (pfold st (batch p e))) as (-> & -> & ->). rewrite app_nil_r.
    destruct Hp as [-> | ->]; cbn; rewrite !Hg by reflexivity; rewrite ?orb_false_r; auto.
  Qed.
  Lemma G_training n e d st : G d st (training_stages n e) = g (End PTrainEpoch, e, OfTrain e) /\
    finished (pfold st (training_stages n e)) = Some e /\ started (pfold st (training_stages n e)) = started st.
  Proof.
    unfold training_stages. cbn [pobs flat_map]. rewrite Hg by reflexivity. cbn [app]. rewrite pobs_app, flat_map_app.
    edestruct (G_batches PTrainBatch e n (or_introl eq_refl)) as (-> & _ & _). cbn [app pobs flat_map]. rewrite app_nil_r. split; [reflexivity|].
    change (pfold st (?a :: ?b)) with (pfold (padv st (Start PTrainEpoch) e) b). rewrite pfold_app.
    edestruct (G_batches PTrainBatch e n (or_introl eq_refl) d (padv st (Start PTrainEpoch) e)) as (_ & _ & S). cbn. rewrite S. cbn. rewrite !orb_false_r. auto.
  Qed.
  Lemma G_validation n e d st : G d st (validation_stages n e) = g (End PValEpoch, e, OfVal (negb (started st)) e) /\
    cur (pfold st (validation_stages n e)) = OfVal (negb (started st)) e /\ finished (pfold st (validation_stages n e)) = finished st /\
    started (pfold st (validation_stages n e)) = started st /\ last_end d (validation_stages n e) = e.
  Proof.
    unfold validation_stages. cbn [pobs flat_map]. rewrite Hg by reflexivity. cbn [app]. rewrite pobs_app, flat_map_app.
    destruct (G_batches PValBatch e n (or_intror eq_refl) (le_step d (Start PValEpoch, e)) (padv st (Start PValEpoch) e)) as (-> & F & S).
    change (pfold st (?a :: ?b)) with (pfold (padv st (Start PValEpoch) e) b). rewrite pfold_app. cbn [app pobs flat_map]. rewrite app_nil_r.
    unfold pcontent, content_at. cbn [ev_stage ev_epoch]. rewrite S. cbn [pfold fold_left fst snd padv cur finished started pcontent content_at ev_stage ev_epoch].
    unfold pcontent, content_at. cbn [ev_stage ev_epoch]. rewrite S, F. cbn. rewrite !orb_false_r. repeat split.
    unfold last_end. rewrite fold_left_app. reflexivity.
  Qed.
  Lemma G_epochs v nt nv es : forall d st, started st = true ->
    G d st (flat_map (epoch_stages v nt nv) es) =
      flat_map (fun e => g (End PTrainEpoch, e, OfTrain e) ++ (if Nat.ltb 0 v && Nat.eqb (e mod v) 0 then g (End PValEpoch, e, OfVal false e) else [])) es /\
    finished (pfold st (flat_map (epoch_stages v nt nv) es)) = match rev es with [] => finished st | e :: _ => Some e end.
  Proof.
    induction es as [|e es IH]; intros d st Hs; [auto|]. cbn [flat_map]. rewrite pobs_app, flat_map_app, pfold_app.
    assert (H : G d st (epoch_stages v nt nv e) = g (End PTrainEpoch, e, OfTrain e) ++ (if Nat.ltb 0 v && Nat.eqb (e mod v) 0 then g (End PValEpoch, e, OfVal false e) else []) /\
      finished (pfold st (epoch_stages v nt nv e)) = Some e /\ started (pfold st (epoch_stages v nt nv e)) = true).
    { unfold epoch_stages. rewrite pobs_app, flat_map_app, pfold_app. destruct (G_training nt e d st) as (-> & F & S).
      destruct (Nat.ltb 0 v && Nat.eqb (e mod v) 0).
      - destruct (G_validation nv e (last_end d (training_stages nt e)) (pfold st (training_stages nt e))) as (-> & _ & F2 & S2 & _). rewrite F2, F, S2, S, Hs. auto.
      - cbn [pobs flat_map pfold fold_left]. rewrite F, S, Hs. auto. }
    destruct H as (-> & F & S). destruct (IH (last_end d (epoch_stages v nt nv e)) _ S) as (-> & ->). split; [reflexivity|].
    rewrite F. cbn [rev]. destruct (rev es); reflexivity.
  Qed.

  (** What a reaction to the relevant stages amounts to over a run that does not raise. *)
  Lemma run_obs w mi v nt nv gs e0 : never_raises w -> exists s k, fit w mi v nt nv gs e0 = Ok s /\ epochs_run (trace s) = seq gs k /\ k <= mi + 1 /\
    (k < mi + 1 -> asks_stop w (trace s)) /\
    flat_map g (observe w [] (trace s) ostate0) =
      (if Nat.ltb 0 v then g (End PValEpoch, e0, OfVal true e0) else []) ++
      g (Start PTrain, if Nat.ltb 0 v then e0 else gs, if Nat.ltb 0 v then OfVal true e0 else NoMetrics) ++
      flat_map (fun e => g (End PTrainEpoch, e, OfTrain e) ++ (if Nat.ltb 0 v && Nat.eqb (e mod v) 0 then g (End PValEpoch, e, OfVal false e) else [])) (seq gs k) ++
      g (End PTrain, if Nat.eqb k 0 then e0 else gs + k - 1, if Nat.eqb k 0 then NoMetrics else OfTrain (gs + k - 1)).
  Proof.
    intros Hw. destruct (C30_run w mi v nt nv gs e0 Hw) as (s & k & E & Hk & (last & L) & St & _). exists s, k. split; [exact E|].
    split; [|split; [exact Hk|split; [exact St|]]].
    - assert (X : forall l, epochs_run l = flat_map (fun se => match fst se with Start PTrainEpoch => [snd se] | _ => [] end) (stages l)).
      { induction l as [|[e|n] l IH]; [reflexivity| |exact IH]. cbn. unfold epochs_run in IH. rewrite IH. destruct (ev_stage e) as [[]|[]]; reflexivity. }
      rewrite X, L, !flat_map_app. cbn [flat_map fst snd app].
      assert (T : forall p e n, p <> PTrainEpoch -> flat_map (fun se => match fst se with Start PTrainEpoch => [snd se] | _ => [] end) (times n (batch p e)) = []).
      { intros p e n Hp. induction n as [|n IHn]; [reflexivity|]. cbn [times]. rewrite flat_map_app, IHn. destruct p; try congruence; reflexivity. }
      assert (VS : forall n e, flat_map (fun se => match fst se with Start PTrainEpoch => [snd se] | _ => [] end) (validation_stages n e) = []).
      { intros n e. unfold validation_stages. cbn [flat_map fst snd app]. rewrite flat_map_app, T by discriminate. reflexivity. }
      replace (flat_map _ (if 0 <? v then validation_stages nv e0 else [])) with (@nil nat) by (destruct (0 <? v); [rewrite VS|]; reflexivity).
      cbn [app]. rewrite app_nil_r. generalize (seq gs k). induction l as [|e l IH]; [reflexivity|]. cbn [flat_map]. rewrite flat_map_app, IH.
      unfold epoch_stages. rewrite flat_map_app. unfold training_stages. cbn [flat_map fst snd app]. rewrite flat_map_app, T by discriminate. cbn [flat_map fst snd app].
      replace (flat_map _ (if (0 <? v) && (e mod v =? 0) then validation_stages nv e else [])) with (@nil nat) by (destruct (_ && _); [rewrite VS|]; reflexivity). reflexivity.
    - pose proof (fit_inv w gs e0 mi v nt nv) as (Gd & _). rewrite E in Gd. cbn [st_of] in Gd. rewrite (observe_pobs w Hw _ [] gs ostate0 Gd).
      assert (HL : last = if k =? 0 then e0 else gs + k - 1).
      { destruct (fit_end w gs e0 mi v nt nv s E) as (t & e & Et & Es & Ee).
        rewrite Et, stages_app' in L. cbn [stages flat_map] in L. rewrite app_nil_r, Es in L. rewrite !app_assoc in L.
        apply app_inj_tail in L as (L1 & L2). injection L2 as L2. rewrite <- L2, Ee, L1, !lastep_app. cbn [lastep fold_left snd].
        clear. unfold lastep. destruct k as [|k].
        - reflexivity.
        - rewrite seq_S, flat_map_app. cbn [flat_map]. rewrite app_nil_r. rewrite fold_left_app. replace (gs + S k - 1) with (gs + k) by lia. cbn [Nat.eqb].
          unfold epoch_stages. rewrite fold_left_app. unfold training_stages, validation_stages. cbn [fold_left]. rewrite fold_left_app. cbn [fold_left snd].
          destruct (_ && _); [|reflexivity]. cbn [fold_left]. rewrite fold_left_app. reflexivity. }
      rewrite L, HL. set (A := if 0 <? v then validation_stages nv e0 else []).
      assert (HA : G gs ostate0 A = (if 0 <? v then g (End PValEpoch, e0, OfVal true e0) else []) /\ finished (pfold ostate0 A) = None /\
        started (pfold ostate0 A) = false /\ cur (pfold ostate0 A) = (if 0 <? v then OfVal true e0 else NoMetrics) /\ last_end gs A = if 0 <? v then e0 else gs).
      { unfold A. destruct (0 <? v); [|repeat split]. destruct (G_validation nv e0 gs ostate0) as (-> & -> & -> & -> & ->). repeat split. }
      destruct HA as (HA1 & HA2 & HA3 & HA4 & HA5).
      rewrite pobs_app, flat_map_app, HA1, HA5. f_equal.
      rewrite pobs_app, flat_map_app. cbn [pobs flat_map seen_at]. unfold pcontent at 1. unfold content_at. cbn [ev_stage]. rewrite HA4, app_nil_r. f_equal.
      rewrite pobs_app, flat_map_app.
      match goal with |- context [pfold (pfold ostate0 A) ?x] => set (st1 := pfold (pfold ostate0 A) x) end.
      assert (S1 : started st1 = true) by (unfold st1; cbn; rewrite orb_true_r; reflexivity).
      assert (F1 : finished st1 = None) by (unfold st1; cbn; exact HA2).
      match goal with |- context [pobs ?d st1 _] => destruct (G_epochs v nt nv (seq gs k) d st1 S1) as (-> & F2) end. f_equal.
      cbn [pobs flat_map seen_at]. rewrite app_nil_r. unfold pcontent, content_at. cbn [ev_stage]. rewrite F2, F1. f_equal. f_equal.
      destruct k as [|k]; [reflexivity|]. rewrite seq_S, rev_app_distr. cbn [rev app Nat.eqb]. replace (gs + S k - 1) with (gs + k) by lia. reflexivity.
  Qed.
End Relevant.

(** ** What the writer is told *)
Definition wr (l : list action) : list (nat * content) := flat_map (fun a => match a with Write i m => [(i, m)] | _ => [] end) l.
Definition pl (l : list action) : list nat := flat_map (fun a => match a with Plot i => [i] | _ => [] end) l.
Definition pa (l : list action) : list bool := flat_map (fun a => match a with Params => [true] | Model => [false] | _ => [] end) l.
Definition multiple (n i : nat) : bool := Nat.ltb 0 n && Nat.ltb 0 i && Nat.eqb (i mod n) 0.
Lemma zmod_eqb i n : n <> 0 -> Z.eqb (Z.of_nat i mod Z.of_nat n) 0 = Nat.eqb (i mod n) 0.
Proof.
  intros H. rewrite <- Nat2Z.inj_mod. destruct (Nat.eqb_spec (i mod n) 0) as [-> |X]; [reflexivity|]. apply Z.eqb_neq. lia.
Qed.
Lemma call_mk s n st i : n <> 0 -> call (snd (mk KOther s n)) st {| iteration := Z.of_nat i; opt_data := 0 |} =
  stage_eqb s st && (stage_eqb st (Start PTrain) || stage_eqb st (End PTrain) || (Nat.ltb 0 i && Nat.eqb (i mod n) 0)).
Proof.
  intros H. unfold call, mk. cbn [snd on]. destruct (stage_eqb s st); [|reflexivity]. cbn [andb modify]. unfold should_call. cbn [called_every iteration condition].
  destruct (stage_eqb st (Start PTrain) || stage_eqb st (End PTrain)); [reflexivity|]. cbn [orb].
  rewrite zmod_eqb by exact H. destruct (Z.eqb_spec (Z.of_nat n) 0); [lia|]. cbn [orb]. destruct i as [|i]; [reflexivity|]. destruct (Z.eqb_spec (Z.of_nat (S i)) 0); [lia|].
  rewrite andb_true_r. destruct (_ =? 0); reflexivity.
Qed.
Definition told_write (c : config) (o : obs) : list (nat * content) :=
  match o with (s, i, m) =>
    match s with
    | Start PTrain => when (Nat.ltb 0 (val_every c)) (i, m)
    | End PTrainEpoch => when (multiple (write_every c) i) (i, m)
    | End PValEpoch => when (multiple (val_every c) i) (i, m)
    | End PTrain => when (Nat.ltb 0 (write_every c)) (i, m)
    | _ => []
    end
  end.
Definition told_plot (c : config) (o : obs) : list nat :=
  match o with (s, i, m) =>
    match s with
    | Start PTrain => [i]
    | End PTrainEpoch => when (multiple (plot_every c) i) i
    | End PTrain => when (Nat.ltb 0 (plot_every c)) i
    | _ => []
    end
  end.
Definition told_once (c : config) (o : obs) : list bool :=
  match o with (s, i, m) => match s with End PTrain => when (has_params c) true ++ when (log_model c) false | _ => [] end end.
Lemma user_silent user rank o : no_writer user -> tell rank user o = [].
Proof.
  intros H. unfold tell. induction user as [|kc user IH]; [reflexivity|]. cbn [flat_map]. rewrite IH by (intros x Hx; apply H; right; exact Hx).
  rewrite (H kc (or_introl eq_refl)). unfold act. destruct (call _ _ _); [|reflexivity]. destruct (rank =? 0); reflexivity.
Qed.
Lemma tell_app rank a b o : tell rank (a ++ b) o = tell rank a o ++ tell rank b o. Proof. apply flat_map_app. Qed.
Lemma tell_when rank b k s n o : (b = true -> n <> 0) -> tell rank (when b (mk k s n)) o =
  if b && stage_eqb s (fst (fst o)) && (stage_eqb (fst (fst o)) (Start PTrain) || stage_eqb (fst (fst o)) (End PTrain) || (Nat.ltb 0 (snd (fst o)) && Nat.eqb (snd (fst o) mod n) 0))
  then act rank k o else [].
Proof.
  intros H. destruct b; [|reflexivity]. unfold tell. cbn [when flat_map]. rewrite app_nil_r.
  change (call (snd (mk k s n))) with (call (snd (mk KOther s n))). rewrite call_mk by (apply H; reflexivity). reflexivity.
Qed.
Lemma pos_ne n : (0 <? n) = true -> n <> 0. Proof. intros H. apply Nat.ltb_lt in H. lia. Qed.
Lemma told user c o : no_writer user ->
  wr (tell 0 (initialize_callbacks user c) o) = told_write c o /\ pl (tell 0 (initialize_callbacks user c) o) = told_plot c o /\
  pa (tell 0 (initialize_callbacks user c) o) = told_once c o.
Proof.
  intros H. unfold initialize_callbacks. rewrite tell_app, (user_silent user 0 o H). cbn [app]. change (mk KPlot (Start PTrain) 1 :: ?x) with (when true (mk KPlot (Start PTrain) 1) ++ x).
  rewrite !tell_app, !tell_when by (auto using pos_ne).
  destruct o as ((s, i), m). cbn [fst snd]. unfold told_write, told_plot, told_once, multiple.
  destruct s as [[]|[]]; cbn [stage_eqb phase_eqb M_Callbacks.phase_eqb M_Callbacks.stage_eqb andb orb];
    rewrite ?andb_false_r, ?andb_true_r, ?andb_false_l, ?orb_true_r; cbn [app];
    unfold act; cbn [Nat.eqb fst snd];
    destruct (0 <? val_every c), (0 <? plot_every c), (0 <? write_every c), (has_params c), (log_model c);
    cbn [andb when wr pl pa app flat_map];
    repeat match goal with |- context [if ?b then _ else _] => destruct b end; cbn; auto.
Qed.
Lemma told_irrelevant c s i m : relevant s = false -> told_write c (s, i, m) = [] /\ told_plot c (s, i, m) = [] /\ told_once c (s, i, m) = [].
Proof. destruct s as [[]|[]]; cbn; intros; try discriminate; auto. Qed.
Lemma wr_app a b : wr (a ++ b) = wr a ++ wr b. Proof. apply flat_map_app. Qed.
Lemma pl_app a b : pl (a ++ b) = pl a ++ pl b. Proof. apply flat_map_app. Qed.
Lemma pa_app a b : pa (a ++ b) = pa a ++ pa b. Proof. apply flat_map_app. Qed.
Lemma wr_actions w user c tr : no_writer user -> wr (actions w 0 (initialize_callbacks user c) tr) = flat_map (told_write c) (observe w [] tr ostate0).
Proof.
  intros H. unfold actions. induction (observe w [] tr ostate0) as [|o l IH]; [reflexivity|]. cbn [flat_map]. rewrite wr_app, IH. f_equal. apply told, H.
Qed.
Lemma pl_actions w user c tr : no_writer user -> pl (actions w 0 (initialize_callbacks user c) tr) = flat_map (told_plot c) (observe w [] tr ostate0).
Proof.
  intros H. unfold actions. induction (observe w [] tr ostate0) as [|o l IH]; [reflexivity|]. cbn [flat_map]. rewrite pl_app, IH. f_equal. apply told, H.
Qed.
Lemma pa_actions w user c tr : no_writer user -> pa (actions w 0 (initialize_callbacks user c) tr) = flat_map (told_once c) (observe w [] tr ostate0).
Proof.
  intros H. unfold actions. induction (observe w [] tr ostate0) as [|o l IH]; [reflexivity|]. cbn [flat_map]. rewrite pa_app, IH. f_equal. apply told, H.
Qed.

Lemma multiple_iff n i : multiple n i = true <-> 0 < n /\ 0 < i /\ i mod n = 0.
Proof. unfold multiple. rewrite !andb_true_iff, !Nat.ltb_lt, Nat.eqb_eq. tauto. Qed.
Lemma in_when {A} b (x y : A) : In y (when b x) <-> b = true /\ x = y.
Proof. destruct b; cbn; intuition congruence. Qed.
(** The metrics the writer is told over a run that does not raise, apart from empty ones. *)
Lemma writes_spec c gs e0 k i m : m <> NoMetrics ->
  (In (i, m) ((if Nat.ltb 0 (val_every c) then told_write c (End PValEpoch, e0, OfVal true e0) else []) ++
      told_write c (Start PTrain, if Nat.ltb 0 (val_every c) then e0 else gs, if Nat.ltb 0 (val_every c) then OfVal true e0 else NoMetrics) ++
      flat_map (fun e => told_write c (End PTrainEpoch, e, OfTrain e) ++ (if Nat.ltb 0 (val_every c) && Nat.eqb (e mod val_every c) 0 then told_write c (End PValEpoch, e, OfVal false e) else [])) (seq gs k) ++
      told_write c (End PTrain, if Nat.eqb k 0 then e0 else gs + k - 1, if Nat.eqb k 0 then NoMetrics else OfTrain (gs + k - 1)))
   <-> write_due c gs e0 k i m).
Proof.
  intros Hm. rewrite !in_app_iff, in_flat_map. unfold write_due. split.
  - intros [H|[H|[(e & He & H)|H]]].
    + destruct (Nat.ltb_spec 0 (val_every c)) as [Hv|Hv]; [|destruct H]. cbn [told_write] in H. rewrite in_when in H. destruct H as (_ & [= <- <-]). right. right. auto.
    + cbn [told_write] in H. rewrite in_when in H. destruct H as (Hb & H). rewrite Hb in H. injection H as <- <-. apply Nat.ltb_lt in Hb. right. right. auto.
    + rewrite in_seq in He. rewrite in_app_iff in H. destruct H as [H|H].
      * cbn [told_write] in H. rewrite in_when, multiple_iff in H. destruct H as (Hb & [= <- <-]). left. intuition.
      * destruct (Nat.ltb_spec 0 (val_every c)) as [Hv|Hv]; [|destruct H]. cbn [andb] in H. destruct (Nat.eqb_spec (e mod val_every c) 0) as [Hd|Hd]; [|destruct H].
        cbn [told_write] in H. rewrite in_when, multiple_iff in H. destruct H as (Hb & [= <- <-]). right. left. intuition.
    + cbn [told_write] in H. rewrite in_when in H. destruct H as (Hb & H). apply Nat.ltb_lt in Hb. destruct (Nat.eqb_spec k 0) as [Hk|Hk]; [congruence|]. injection H as <- <-. left. split; [reflexivity|]. split; [lia|]. split; [exact Hb|]. right. lia.
  - intros [(-> & Hr & Hw & [Hd|Hd])|[(-> & Hr & Hv & Hp & Hd)|(-> & -> & Hv)]].
    + right. right. left. exists i. rewrite in_seq. split; [exact Hr|]. apply in_app_iff. left. cbn [told_write]. apply in_when. rewrite multiple_iff. intuition.
    + right. right. right. cbn [told_write]. apply in_when. rewrite Nat.ltb_lt. split; [exact Hw|]. destruct (Nat.eqb_spec k 0); [lia|]. replace (gs + k - 1) with i by lia. reflexivity.
    + right. right. left. exists i. rewrite in_seq. split; [exact Hr|]. apply in_app_iff. right. rewrite (proj2 (Nat.ltb_lt _ _) Hv), Hd. cbn [andb Nat.eqb told_write]. apply in_when. rewrite multiple_iff. auto.
    + right. left. rewrite (proj2 (Nat.ltb_lt _ _) Hv). cbn [told_write]. apply in_when. rewrite (proj2 (Nat.ltb_lt _ _) Hv). auto.
Qed.
Lemma plots_spec c gs e0 k :
  (if Nat.ltb 0 (val_every c) then told_plot c (End PValEpoch, e0, OfVal true e0) else []) ++
  told_plot c (Start PTrain, if Nat.ltb 0 (val_every c) then e0 else gs, if Nat.ltb 0 (val_every c) then OfVal true e0 else NoMetrics) ++
  flat_map (fun e => told_plot c (End PTrainEpoch, e, OfTrain e) ++ (if Nat.ltb 0 (val_every c) && Nat.eqb (e mod val_every c) 0 then told_plot c (End PValEpoch, e, OfVal false e) else [])) (seq gs k) ++
  told_plot c (End PTrain, if Nat.eqb k 0 then e0 else gs + k - 1, if Nat.eqb k 0 then NoMetrics else OfTrain (gs + k - 1)) = plot_steps c gs e0 k.
Proof.
  unfold plot_steps. replace (if 0 <? val_every c then told_plot c (End PValEpoch, e0, OfVal true e0) else []) with (@nil nat) by (destruct (0 <? _); reflexivity).
  cbn [app told_plot]. f_equal. f_equal.
  - induction (seq gs k) as [|e l IH]; [reflexivity|]. cbn [flat_map filter]. rewrite IH. replace (if _ && _ then [] else []) with (@nil nat) by (destruct (_ && _); reflexivity).
    rewrite app_nil_r. unfold multiple. destruct (_ && _ && _); reflexivity.
Qed.
Lemma run_told user c w mi nt nv gs e0 : never_raises w -> no_writer user ->
  exists s k, fit w mi (val_every c) nt nv gs e0 = Ok s /\ epochs_run (trace s) = seq gs k /\ k <= mi + 1 /\ (k < mi + 1 -> asks_stop w (trace s)) /\
    (forall i m, m <> NoMetrics -> (In (i, m) (wr (actions w 0 (initialize_callbacks user c) (trace s))) <-> write_due c gs e0 k i m)) /\
    pl (actions w 0 (initialize_callbacks user c) (trace s)) = plot_steps c gs e0 k /\
    pa (actions w 0 (initialize_callbacks user c) (trace s)) = when (has_params c) true ++ when (log_model c) false.
Proof.
  intros Hw Hu.
  destruct (run_obs (told_once c) (fun s i m X => proj2 (proj2 (told_irrelevant c s i m X))) w mi (val_every c) nt nv gs e0 Hw) as (s & k & E & R & Hk & St & H).
  exists s, k. split; [exact E|]. split; [exact R|]. split; [exact Hk|]. split; [exact St|].
  (* the same run, for metrics and for figures *)
  destruct (run_obs (told_write c) (fun s i m X => proj1 (told_irrelevant c s i m X)) w mi (val_every c) nt nv gs e0 Hw) as (s1 & k1 & E1 & R1 & _ & _ & H1).
  destruct (run_obs (told_plot c) (fun s i m X => proj1 (proj2 (told_irrelevant c s i m X))) w mi (val_every c) nt nv gs e0 Hw) as (s2 & k2 & E2 & R2 & _ & _ & H2).
  rewrite E in E1, E2. injection E1 as <-. injection E2 as <-.
  assert (k1 = k) as -> by (rewrite R in R1; apply (f_equal (@length nat)) in R1; rewrite !seq_length in R1; congruence).
  assert (k2 = k) as -> by (rewrite R in R2; apply (f_equal (@length nat)) in R2; rewrite !seq_length in R2; congruence).
  split; [|split].
  - intros i m Hm. rewrite (wr_actions w user c _ Hu), H1. apply writes_spec, Hm.
  - rewrite (pl_actions w user c _ Hu), H2. apply plots_spec.
  - rewrite (pa_actions w user c _ Hu), H. clear. cbn [told_once app].
    replace (if 0 <? val_every c then [] else []) with (@nil bool) by (destruct (0 <? _); reflexivity). cbn [app].
    replace (flat_map _ (seq gs k)) with (@nil bool); [reflexivity|]. symmetry. induction (seq gs k) as [|e l IH]; [reflexivity|]. cbn [flat_map]. rewrite IH. destruct (_ && _); reflexivity.
Qed.

(** ** TensorBoard *)
Section Board.
  Context {V Fig : Type}.
  Variable metrics_of : content -> list (string * V).
  Variable pfs : list (nat -> string * Fig).
  Lemma shown_app a b : shown (a ++ b) = fold_left (show1 V Fig) b (shown a). Proof. apply fold_left_app. Qed.
  Definition not_purge (r : record V Fig) : Prop := match r with Purge _ => False | _ => True end.
  Lemma show_records l : Forall not_purge l -> forall sh, fold_left (show1 V Fig) l sh = sh ++ l.
  Proof.
    induction 1 as [|r l Hr _ IH]; intros sh; [rewrite app_nil_r; reflexivity|]. cbn [fold_left]. rewrite IH. destruct r; cbn in *; try tauto; rewrite <- app_assoc; reflexivity.
  Qed.
  Lemma tb_records acts : Forall not_purge (flat_map (tb_record V Fig metrics_of pfs) acts).
  Proof.
    apply Forall_forall. intros r Hr. apply in_flat_map in Hr as (a & _ & Hr). destruct a; cbn in Hr; try (apply in_map_iff in Hr as (x & <- & _); exact I); [|tauto].
    destruct Hr as [<- |[]]. exact I.
  Qed.
  Lemma shown_fit folder gs acts : shown (tb_fit V Fig metrics_of pfs folder gs acts) =
    filter (kept V Fig gs) (shown folder) ++ flat_map (tb_record V Fig metrics_of pfs) acts.
  Proof. unfold tb_fit. rewrite shown_app. cbn [fold_left show1]. apply show_records, tb_records. Qed.
  Lemma scalar_in acts tag v step : In (Scalar tag v step) (flat_map (tb_record V Fig metrics_of pfs) acts) <-> exists m, In (step, m) (wr acts) /\ In (tag, v) (metrics_of m).
  Proof.
    rewrite in_flat_map. split.
    - intros (a & Ha & H). destruct a as [i m|i| |]; cbn in H.
      + apply in_map_iff in H as ((k', v') & [= <- <- <-] & H). exists m. split; [|exact H]. apply in_flat_map. exists (Write i m). split; [exact Ha|left; reflexivity].
      + apply in_map_iff in H as (pf & X & _). discriminate.
      + destruct H as [H|[]]. discriminate.
      + destruct H.
    - intros (m & H & Hm). apply in_flat_map in H as (a & Ha & H). destruct a as [i m'|i| |]; cbn in H; try tauto. destruct H as [[= -> ->]|[]].
      exists (Write step m). split; [exact Ha|]. cbn. apply in_map_iff. exists (tag, v). auto.
  Qed.
  Lemma figure_in acts d f step : In (Figure d f step) (flat_map (tb_record V Fig metrics_of pfs) acts) <-> In step (pl acts) /\ exists pf, In pf pfs /\ pf step = (d, f).
  Proof.
    rewrite in_flat_map. split.
    - intros (a & Ha & H). destruct a as [i m|i| |]; cbn in H.
      + apply in_map_iff in H as (pf & X & _). discriminate.
      + apply in_map_iff in H as (pf & [= <- <- <-] & H). split; [apply in_flat_map; exists (Plot i); split; [exact Ha|left; reflexivity]|]. exists pf. split; [exact H|]. destruct (pf i); reflexivity.
      + destruct H as [H|[]]. discriminate.
      + destruct H.
    - intros (H & pf & Hpf & E). apply in_flat_map in H as (a & Ha & H). destruct a as [i m'|i| |]; cbn in H; try tauto. destruct H as [-> |[]].
      exists (Plot step). split; [exact Ha|]. cbn. apply in_map_iff. exists pf. rewrite E. auto.
  Qed.
End Board.

(** After a training that does not raise, in a process of rank 0, TensorBoard shows for the log folder: of what it showed
    before, the values at steps before the first epoch; and of this training exactly the metrics that are due, each at the
    step of its epoch.  All epochs are run unless a stop is requested. *)
Theorem C84_metrics : forall {V Fig} (metrics_of : content -> list (string * V)) (pfs : list (nat -> string * Fig)) user c w max_iter n_train n_val gs e0 folder,
  never_raises w -> no_writer user -> metrics_of NoMetrics = [] ->
  exists s k, fit w max_iter (val_every c) n_train n_val gs e0 = Ok s /\ epochs_run (trace s) = seq gs k /\ k <= max_iter + 1 /\ (k < max_iter + 1 -> asks_stop w (trace s)) /\
    forall tag v step,
      In (Scalar tag v step) (shown (tb_fit V Fig metrics_of pfs folder gs (actions w 0 (initialize_callbacks user c) (trace s)))) <->
      (step < gs /\ In (Scalar tag v step) (shown folder)) \/ (exists m, write_due c gs e0 k step m /\ In (tag, v) (metrics_of m)).
Proof.
  intros V Fig mo pfs user c w mi nt nv gs e0 folder Hw Hu H0. destruct (run_told user c w mi nt nv gs e0 Hw Hu) as (s & k & E & R & Hk & St & W & _ & _).
  exists s, k. do 4 (split; [assumption|]). intros tag v step. rewrite shown_fit, in_app_iff, filter_In, scalar_in. cbn [kept]. rewrite Nat.ltb_lt. split.
  - intros [(H & L)|(m & H & Hm)]; [left; auto|right]. exists m. split; [|exact Hm]. apply W in H; [exact H|]. intros ->. rewrite H0 in Hm. destruct Hm.
  - intros [(L & H)|(m & H & Hm)]; [left; auto|right]. exists m. split; [|exact Hm]. apply W; [|exact H]. intros ->. rewrite H0 in Hm. destruct Hm.
Qed.

(** So for a metric of the training (its name belongs to no validation) there is one value per step of this training. *)
Theorem C84_one_value : forall {V Fig} (metrics_of : content -> list (string * V)) (pfs : list (nat -> string * Fig)) user c w max_iter n_train n_val gs e0 folder tag,
  never_raises w -> no_writer user -> metrics_of NoMetrics = [] ->
  (forall m, NoDup (map fst (metrics_of m))) -> (forall i e v, ~ In (tag, v) (metrics_of (OfVal i e))) ->
  exists s, fit w max_iter (val_every c) n_train n_val gs e0 = Ok s /\
    forall step v v', gs <= step ->
      In (Scalar tag v step) (shown (tb_fit V Fig metrics_of pfs folder gs (actions w 0 (initialize_callbacks user c) (trace s)))) ->
      In (Scalar tag v' step) (shown (tb_fit V Fig metrics_of pfs folder gs (actions w 0 (initialize_callbacks user c) (trace s)))) -> v = v'.
Proof.
  intros V Fig mo pfs user c w mi nt nv gs e0 folder tag Hw Hu H0 Hn Ht. destruct (C84_metrics mo pfs user c w mi nt nv gs e0 folder Hw Hu H0) as (s & k & E & _ & _ & _ & H).
  exists s. split; [exact E|]. intros step v v' Hs X Y. apply H in X as [(L & _)|(m & Hm & X)]; [lia|]. apply H in Y as [(L & _)|(m' & Hm' & Y)]; [lia|].
  assert (T : forall m v, write_due c gs e0 k step m -> In (tag, v) (mo m) -> m = OfTrain step).
  { intros m0 v0 [(-> & _)|[(-> & _)|(-> & _)]] X0; [reflexivity| |]; exfalso; exact (Ht _ _ _ X0). }
  rewrite (T m v Hm X) in X. rewrite (T m' v' Hm' Y) in Y. specialize (Hn (OfTrain step)). clear - X Y Hn.
  induction (mo (OfTrain step)) as [|(a, b) l IH]; [destruct X|]. cbn [map fst] in Hn. apply NoDup_cons_iff in Hn as (Hn1 & Hn2).
  assert (Z : forall z, In (tag, z) l -> In tag (map fst l)) by (intros z Hz; apply in_map_iff; exists (tag, z); auto).
  destruct X as [X|X], Y as [Y|Y]; [congruence| | |apply IH; assumption]; exfalso; apply Hn1; injection X || injection Y; intros; subst; eauto.
Qed.

(** The figures TensorBoard shows: at the start, at every positive multiple of plot_every, at the end. *)
Theorem C84_figures : forall {V Fig} (metrics_of : content -> list (string * V)) (pfs : list (nat -> string * Fig)) user c w max_iter n_train n_val gs e0 folder,
  never_raises w -> no_writer user ->
  exists s k, fit w max_iter (val_every c) n_train n_val gs e0 = Ok s /\ epochs_run (trace s) = seq gs k /\
    forall d f step,
      In (Figure d f step) (shown (tb_fit V Fig metrics_of pfs folder gs (actions w 0 (initialize_callbacks user c) (trace s)))) <->
      (step < gs /\ In (Figure d f step) (shown folder)) \/ (In step (plot_steps c gs e0 k) /\ exists pf, In pf pfs /\ pf step = (d, f)).
Proof.
  intros V Fig mo pfs user c w mi nt nv gs e0 folder Hw Hu. destruct (run_told user c w mi nt nv gs e0 Hw Hu) as (s & k & E & R & _ & _ & _ & P & _).
  exists s, k. do 2 (split; [assumption|]). intros d f step. rewrite shown_fit, in_app_iff, filter_In, figure_in, P. cbn [kept]. rewrite Nat.ltb_lt. tauto.
Qed.

(** Hyperparameters and model are logged once each if the configuration asks for them, in this order, otherwise not. *)
Theorem C84_once : forall user c w max_iter n_train n_val gs e0, never_raises w -> no_writer user ->
  exists s, fit w max_iter (val_every c) n_train n_val gs e0 = Ok s /\
    filter (fun a => match a with Params | Model => true | _ => false end) (actions w 0 (initialize_callbacks user c) (trace s)) =
    (if has_params c then [Params] else []) ++ (if log_model c then [Model] else []).
Proof.
  intros user c w mi nt nv gs e0 Hw Hu. destruct (run_told user c w mi nt nv gs e0 Hw Hu) as (s & k & E & _ & _ & _ & _ & _ & A).
  exists s. split; [exact E|]. set (l := actions w 0 _ _) in *. clearbody l.
  assert (H : filter (fun a => match a with Params | Model => true | _ => false end) l = map (fun b : bool => if b then Params else Model) (pa l)).
  { clear. induction l as [|a l IH]; [reflexivity|]. change (pa (a :: l)) with (pa ([a] ++ l)). rewrite pa_app, map_app, <- IH. destruct a; reflexivity. }
  rewrite H, A. destruct (has_params c), (log_model c); reflexivity.
Qed.

(** Other processes write nothing. *)
Theorem C84_rank : forall w rank cbs tr, rank <> 0 -> actions w rank cbs tr = [].
Proof.
  intros w rank cbs tr H. unfold actions. induction (observe w [] tr ostate0) as [|o l IH]; [reflexivity|]. cbn [flat_map]. rewrite IH, app_nil_r.
  clear IH. unfold tell. induction cbs as [|kc cbs IHc]; [reflexivity|]. cbn [flat_map]. rewrite IHc, app_nil_r. unfold act. apply Nat.eqb_neq in H. rewrite H. destruct (call _ _ _); reflexivity.
Qed.

(** ** MLflow *)
Section Flow.
  Context {V Fig : Type}.
  Variable metrics_of : content -> list (string * V).
  Variable pfs : list (nat -> string * Fig).
  Notation rec := (ml_record V Fig metrics_of pfs).
  Lemma rec_names acts : forall r, experiment _ _ (fold_left rec acts r) = experiment _ _ r /\ run_name _ _ (fold_left rec acts r) = run_name _ _ r.
  Proof. induction acts as [|a acts IH]; intros r; [auto|]. cbn [fold_left]. destruct (IH (rec r a)) as (-> & ->). destruct a; auto. Qed.
  Lemma rec_metrics acts : forall r tag v step, In (tag, v, step) (run_metrics _ _ (fold_left rec acts r)) <->
    In (tag, v, step) (run_metrics _ _ r) \/ exists m, In (step, m) (wr acts) /\ In (tag, v) (metrics_of m).
  Proof.
    induction acts as [|a acts IH]; intros r tag v step.
    - cbn. split; [auto|]. intros [H|(m & [] & _)]. exact H.
    - cbn [fold_left]. rewrite IH. change (wr (a :: acts)) with (wr ([a] ++ acts)). rewrite wr_app. setoid_rewrite in_app_iff. destruct a as [i m0|i| |]; cbn [rec run_metrics].
      2-4: (cbn; split; [intros [H|(m & H & X)]; [auto|right; exists m; auto]|intros [H|(m & [[]|H] & X)]; [auto|right; exists m; auto]]).
      rewrite in_app_iff, in_map_iff. cbn. split.
      + intros [[H|((t', v') & [= -> -> ->] & H)]|(m & H & X)]; [auto| |]; right; [exists m0|exists m]; auto.
      + intros [H|(m & [[[= -> ->]|[]]|H] & X)]; [auto| |].
        * left. right. exists (tag, v). auto.
        * right. exists m. auto.
  Qed.
  Lemma rec_once acts : forall r, run_params _ _ (fold_left rec acts r) = run_params _ _ r || existsb (fun b => b) (pa acts) /\
    run_model _ _ (fold_left rec acts r) = run_model _ _ r || existsb negb (pa acts).
  Proof.
    induction acts as [|a acts IH]; intros r; [cbn; rewrite !orb_false_r; auto|]. cbn [fold_left]. destruct (IH (rec r a)) as (-> & ->).
    change (pa (a :: acts)) with (pa ([a] ++ acts)). rewrite pa_app, !existsb_app. destruct a; cbn; rewrite ?orb_false_r, ?orb_true_r; auto.
  Qed.
  Lemma get_set k f d (l : list (string * Fig)) : get Fig d (set_figure Fig k f l) = if String.eqb k d then Some f else get Fig d l.
  Proof.
    induction l as [|(k', f') l IH]; cbn; [reflexivity|]. destruct (String.eqb_spec k' k) as [-> |N]; cbn.
    - destruct (String.eqb_spec k d); reflexivity.
    - rewrite IH. destruct (String.eqb_spec k' d) as [-> |N']; [|reflexivity]. destruct (String.eqb_spec k d); [congruence|reflexivity].
  Qed.
  (** All figures made, in order. *)
  Definition made (steps : list nat) : list (string * Fig) := flat_map (fun i => map (fun pf => pf i) pfs) steps.
  Definition latest (d : string) (f0 : option Fig) (l : list (string * Fig)) : option Fig :=
    fold_left (fun acc x => if String.eqb (fst x) d then Some (snd x) else acc) l f0.
  Lemma rec_figures acts : forall r d, get Fig d (run_figures _ _ (fold_left rec acts r)) = latest d (get Fig d (run_figures _ _ r)) (made (pl acts)).
  Proof.
    induction acts as [|a acts IH]; intros r d; [reflexivity|]. cbn [fold_left]. rewrite IH. change (pl (a :: acts)) with (pl ([a] ++ acts)). rewrite pl_app.
    destruct a as [i m0|i| |]; cbn [rec run_figures]; try reflexivity. unfold made. cbn [pl flat_map app]. unfold latest. rewrite fold_left_app. f_equal.
    generalize (run_figures _ _ r). clear. induction pfs as [|pf l IH]; intros fs; [reflexivity|]. cbn [fold_left map]. rewrite IH, get_set. reflexivity.
  Qed.
End Flow.
(** [f] is the last figure called [d] in [l]. *)
Definition last_called {Fig} (d : string) (f : Fig) (l : list (string * Fig)) : Prop := exists a b, l = a ++ (d, f) :: b /\ forall f', ~ In (d, f') b.
Lemma latest_spec {Fig} d f (l : list (string * Fig)) : latest d None l = Some f <-> last_called d f l.
Proof.
  induction l as [|(k, x) l IH] using rev_ind.
  - cbn. split; [discriminate|]. intros (a & b & E & _). destruct a; discriminate.
  - unfold latest. rewrite fold_left_app. cbn [fold_left fst snd]. fold (latest d None l). destruct (String.eqb_spec k d) as [-> |N].
    + split.
      * intros [= ->]. exists l, []. split; [reflexivity|]. intros f' [].
      * intros (a & b & E & Hb). destruct b as [|y b] using rev_ind; [apply app_inj_tail in E as (_ & [= ->]); reflexivity|].
        rewrite app_comm_cons, app_assoc in E. apply app_inj_tail in E as (_ & <-). exfalso. apply (Hb x). apply in_app_iff. right. left. reflexivity.
    + rewrite IH. split.
      * intros (a & b & -> & Hb). exists a, (b ++ [(k, x)]). split; [rewrite <- app_assoc; reflexivity|]. intros f' Hf. apply in_app_iff in Hf as [Hf|[[= -> _]|[]]]; [exact (Hb _ Hf)|congruence].
      * intros (a & b & E & Hb). destruct b as [|y b] using rev_ind; [apply app_inj_tail in E as (_ & [= -> _]); congruence|].
        rewrite app_comm_cons, app_assoc in E. apply app_inj_tail in E as (-> & <-). exists a, b. split; [reflexivity|]. intros f' Hf. apply (Hb f'). apply in_app_iff. auto.
Qed.

(** With MLflow, when no run is active, a training that does not raise adds one run, under the names given by the
    environment, that holds exactly the metrics that are due, of the figures of each name the last one, and the
    hyperparameters and the model if the configuration asks for them; the run is ended and earlier runs are as they were. *)
Theorem C84_mlflow : forall {V Fig} (metrics_of : content -> list (string * V)) (pfs : list (nat -> string * Fig)) user c w max_iter n_train n_val gs e0 srv env_e env_r fresh1 fresh2,
  never_raises w -> no_writer user -> metrics_of NoMetrics = [] -> active V Fig srv = None ->
  exists s k srv' r, fit w max_iter (val_every c) n_train n_val gs e0 = Ok s /\ epochs_run (trace s) = seq gs k /\
    ml_fit V Fig metrics_of pfs srv env_e env_r fresh1 fresh2 (actions w 0 (initialize_callbacks user c) (trace s)) true = Some srv' /\
    runs V Fig srv' = runs V Fig srv ++ [r] /\ active V Fig srv' = None /\
    (forall e, In e (experiments V Fig srv') <-> In e (experiments V Fig srv) \/ e = experiment V Fig r) /\
    (forall x, env_e = Some x -> experiment V Fig r = x) /\ (forall x, env_r = Some x -> run_name V Fig r = x) /\
    run_params V Fig r = has_params c /\ run_model V Fig r = log_model c /\
    (forall tag v step, In (tag, v, step) (run_metrics V Fig r) <-> exists m, write_due c gs e0 k step m /\ In (tag, v) (metrics_of m)) /\
    (forall d f, get Fig d (run_figures V Fig r) = Some f <-> last_called d f (flat_map (fun i => map (fun pf => pf i) pfs) (plot_steps c gs e0 k))).
Proof.
  intros V Fig mo pfs user c w mi nt nv gs e0 srv env_e env_r f1 f2 Hw Hu H0 Ha. destruct (run_told user c w mi nt nv gs e0 Hw Hu) as (s & k & E & R & _ & _ & W & P & A).
  unfold ml_fit, ml_open. rewrite Ha. set (acts := actions w 0 (initialize_callbacks user c) (trace s)) in *.
  eexists s, k, _, _. split; [exact E|]. split; [exact R|]. split; [reflexivity|]. cbn [ml_close active option_map runs experiments].
  split; [reflexivity|]. split; [reflexivity|].
  fold acts.
  match goal with |- context [fold_left _ acts ?r0] => destruct (rec_names mo pfs acts r0) as (-> & ->); pose proof (rec_metrics mo pfs acts r0) as M; pose proof (rec_figures mo pfs acts r0) as F; destruct (rec_once mo pfs acts r0) as (-> & ->) end.
  cbn [experiment run_name run_metrics run_figures run_params run_model] in *. split; [|split; [|split; [|split; [|split; [|split]]]]].
  - intros e. set (x := getenv env_e f1). destruct (existsb (String.eqb x) (experiments V Fig srv)) eqn:Ex.
    + apply existsb_exists in Ex as (y & Hy & Exy). apply String.eqb_eq in Exy. subst y. split; [auto|]. intros [H| ->]; assumption.
    + rewrite in_app_iff. cbn. intuition.
  - intros x ->. reflexivity.
  - intros x ->. reflexivity.
  - rewrite A. destruct (has_params c), (log_model c); reflexivity.
  - rewrite A. destruct (has_params c), (log_model c); reflexivity.
  - intros tag v step. rewrite M. split.
    + intros [[]|(m & H & Hm)]. exists m. split; [|exact Hm]. apply W in H; [exact H|]. intros ->. rewrite H0 in Hm. destruct Hm.
    + intros (m & H & Hm). right. exists m. split; [|exact Hm]. apply W; [|exact H]. intros ->. rewrite H0 in Hm. destruct Hm.
  - intros d f. rewrite F. cbn [get]. rewrite P. apply latest_spec.
Qed.

(** The hyperparameters given in any experiment remain among those shown for the folder; they are shown only if given. *)
Theorem C84_hyperparameters : forall {V Fig} (metrics_of : content -> list (string * V)) (pfs : list (nat -> string * Fig)) folder gs acts,
  In HParams (shown (tb_fit V Fig metrics_of pfs folder gs acts)) <-> In HParams (shown folder) \/ In Params acts.
Proof.
  intros V Fig metrics_of pfs folder gs acts. rewrite shown_fit, in_app_iff, filter_In, in_flat_map. cbn [kept]. split.
  - intros [[H _]|(a & Ha & H)]; [left; exact H|right]. destruct a as [i m|i| |]; cbn in H.
    + apply in_map_iff in H as ((k & v) & X & _). discriminate X.
    + apply in_map_iff in H as (pf & X & _). discriminate X.
    + exact Ha.
    + destruct H.
  - intros [H|H]; [left; auto|right]. exists Params. split; [exact H|left; reflexivity].
Qed.
Example C84_hyperparameters_instance : let tb := tb_fit nat nat (fun _ => []) [] in In HParams (shown (tb (tb [] 0 [Params]) 3 [Model])).
Proof. apply C84_hyperparameters. left. apply C84_hyperparameters. right. left. reflexivity. Qed.
(** ** Printing *)
(** Every metric is printed exactly once, the first one with "loss" in its name in front. *)
Theorem C84_printed : forall {V} (m : list (string * V)), NoDup (map fst m) ->
  match printed V m with
  | (Some (k, v), rest) => exists a x b, m = a ++ (k, x) :: b /\ v = Some x /\ rest = a ++ b /\ contains "loss" (lower k) = true /\ Forall (fun kv => contains "loss" (lower (fst kv)) = false) a
  | (None, rest) => rest = m /\ Forall (fun kv => contains "loss" (lower (fst kv)) = false) m
  end.
Proof.
  intros V m Hn. unfold printed, loss_key.
  assert (F : match find (fun kv : string * V => contains "loss" (lower (fst kv))) m with
    | Some kv => exists a b, m = a ++ kv :: b /\ contains "loss" (lower (fst kv)) = true /\ Forall (fun kv => contains "loss" (lower (fst kv)) = false) a
    | None => Forall (fun kv => contains "loss" (lower (fst kv)) = false) m end).
  { clear Hn. induction m as [|kv m IH]; [constructor|]. cbn [find]. destruct (contains "loss" (lower (fst kv))) eqn:E; [exists [], m; auto|].
    destruct (find _ m) as [kv'|]; [|constructor; assumption]. destruct IH as (a & b & -> & H1 & H2). exists (kv :: a), b. split; [reflexivity|]. split; [exact H1|]. constructor; assumption. }
  destruct (find _ m) as [(k, x)|]; cbn [option_map fst] in *; [|auto]. destruct F as (a & b & -> & H1 & H2).
  exists a, x, b. split; [reflexivity|]. rewrite map_app in Hn. cbn [map fst] in Hn. apply NoDup_remove_2 in Hn. rewrite in_app_iff in Hn.
  assert (Keep : forall l, ~ In k (map fst l) -> filter (fun kv : string * V => negb (String.eqb (fst kv) k)) l = l).
  { intros l H. induction l as [|(k', v') l IH]; [reflexivity|]. cbn [filter fst]. cbn in H. destruct (String.eqb_spec k' k); [tauto|]. cbn. rewrite IH by tauto. reflexivity. }
  split; [|split; [|auto]].
  - clear - Hn. induction a as [|(k', v') a IH]; cbn; [rewrite String.eqb_refl; reflexivity|]. cbn in Hn. destruct (String.eqb_spec k' k); [tauto|]. apply IH. tauto.
  - rewrite filter_app. cbn [filter fst]. rewrite String.eqb_refl. cbn [negb]. rewrite !Keep by tauto. reflexivity.
Qed.

(** Capital letters and small letters are not told apart when the loss is looked for. *)
Theorem C84_capitals : forall {V} l o s s', In l ["l"; "L"]%char -> In o ["o"; "O"]%char -> In s ["s"; "S"]%char -> In s' ["s"; "S"]%char ->
  forall before after (v : V) rest, exists k v', fst (printed V ((before ++ String l (String o (String s (String s' after))), v) :: rest)%string) = Some (k, v') /\ k = (before ++ String l (String o (String s (String s' after))))%string /\ v' = Some v.
Proof.
  intros V l o s s' Hl Ho Hs Hs' before after v rest. set (name := (before ++ _)%string).
  assert (C : contains "loss" (lower name) = true).
  { unfold name. clear name. induction before as [|a before IH].
    - destruct Hl as [<-|[<-|[]]], Ho as [<-|[<-|[]]], Hs as [<-|[<-|[]]], Hs' as [<-|[<-|[]]]; cbn; destruct (lower after); reflexivity.
    - cbn [append lower contains]. rewrite IH. apply orb_true_r. }
  exists name, (Some v). unfold printed, loss_key. cbn [find fst]. rewrite C. cbn [option_map fst]. split; [|auto]. cbn [get]. rewrite String.eqb_refl. reflexivity.
Qed.
Example C84_capitals_instance : fst (printed nat [("val_acc", 1); ("Train_LOSS", 2)]%string) = Some ("Train_LOSS"%string, Some 2).
Proof. reflexivity. Qed.

(** ** The signature of a logged model *)
Theorem C84_signature : forall {X Y} (model : input X -> option Y) x xs y, model (Tensor X x) = Some y ->
  get_signature X Y model (Some (Tuple X (x :: xs))) = Inferred X Y x y /\ get_signature X Y model None = NoSignature X Y.
Proof. intros X Y model x xs y H. unfold get_signature. cbn. rewrite H. auto. Qed.
(** Finding: for data given by name (a DictDataLoader) the model is called with the first name instead of data, so a model
    that takes dictionaries or tensors raises at the end of the training. *)
Theorem C84_dict_refuted : forall {X Y} (model : input X -> option Y) k ks, (forall n, model (Name X n) = None) ->
  get_signature X Y model (Some (Dict X (k :: ks))) = RaisedError X Y.
Proof. intros X Y model k ks H. unfold get_signature. cbn. rewrite H. reflexivity. Qed.

(** ** Findings *)
Definition simple (m : content) : list (string * content) :=
  match m with NoMetrics => [] | OfTrain _ => [("train_loss"%string, m)] | OfVal _ _ => [("val_loss"%string, m)] | OfBatch _ _ => [("batch"%string, m)] end.
Definition one_figure : list (nat -> string * nat) := [fun i => ("plot"%string, i)].
Definition cfg (wv p v : nat) : config := {| write_every := wv; plot_every := p; val_every := v; has_params := false; log_model := false |}.
Definition board (w : world) (c : config) (mi gs e0 : nat) (folder : list (record content nat)) : list (record content nat) :=
  tb_fit content nat simple one_figure folder gs (actions w 0 (initialize_callbacks [] c) (trace (st_of (fit w mi (val_every c) 1 1 gs e0)))).

(** The documentation of write_every says that metrics are always written at the end of the training; with write_every = 0
    they are not. *)
Theorem C84_end_refuted : forall w max_iter n_train n_val gs e0, never_raises w ->
  exists s, fit w max_iter 0 n_train n_val gs e0 = Ok s /\ forall step m, m <> NoMetrics -> ~ In (Write step m) (actions w 0 (initialize_callbacks [] (cfg 0 0 0)) (trace s)).
Proof.
  intros w mi nt nv gs e0 Hw. destruct (run_told [] (cfg 0 0 0) w mi nt nv gs e0 Hw ltac:(intros kc [])) as (s & k & E & _ & _ & _ & W & _ & _).
  exists s. split; [exact E|]. intros step m Hm H. destruct (proj1 (W step m Hm)) as [(_ & _ & X & _)|[(_ & _ & X & _)|(_ & _ & X)]]; try (cbn in X; lia).
  apply in_flat_map. exists (Write step m). split; [exact H|left; reflexivity].
Qed.
(** With plot_every = 0, documented as disabling plots, figures are made at the start of the training. *)
Theorem C84_plot_disabled_refuted : forall w max_iter n_train n_val gs e0, never_raises w ->
  exists s, fit w max_iter 0 n_train n_val gs e0 = Ok s /\ pl (actions w 0 (initialize_callbacks [] (cfg 0 0 0)) (trace s)) = [gs].
Proof.
  intros w mi nt nv gs e0 Hw. destruct (run_told [] (cfg 0 0 0) w mi nt nv gs e0 Hw ltac:(intros kc [])) as (s & k & E & _ & _ & _ & _ & P & _).
  exists s. split; [exact E|]. rewrite P. unfold plot_steps. cbn. induction (seq gs k); [reflexivity|assumption].
Qed.
(** A training resumed at epoch 4 shows two values of the validation loss at step 4: that of the validation before the
    training and that of the validation after epoch 4. *)
Theorem C84_resume_validation_refuted : let l := shown (board quiet (cfg 0 0 2) 3 4 4 []) in
  In (Scalar "val_loss" (OfVal true 4) 4) l /\ In (Scalar "val_loss" (OfVal false 4) 4) l.
Proof. vm_compute. tauto. Qed.
(** A second fit of the same trainer (without checkpoints) starts again at epoch 0 but shows its first validation at the
    last epoch of the first fit. *)
Theorem C84_refit_refuted : let l := shown (board quiet (cfg 0 0 2) 4 0 4 (board quiet (cfg 0 0 2) 4 0 0 [])) in
  In (Scalar "val_loss" (OfVal true 4) 4) l /\ ~ In (Scalar "val_loss" (OfVal true 0) 0) l.
Proof. vm_compute. split; [tauto|]. intros H. repeat (destruct H as [H|H]; [discriminate|]). exact H. Qed.
(** When the user interrupts an epoch with the keyboard, the metrics of the epoch before are written as those of the
    interrupted one. *)
Definition interrupt_in (n : nat) : world := fun tr =>
  {| r_stop := false; r_raise := match last tr (Work 0) with Work e => if Nat.eqb e n && Nat.eqb (length (filter (fun x => match x with Work _ => true | _ => false end) tr)) (S n) then Some KeyboardInterrupt else None | _ => None end |}.
Theorem C84_interrupted_refuted : exists s, fit (interrupt_in 3) 10 0 1 1 0 0 = Ok s /\
  In (Scalar "train_loss" (OfTrain 2) 3) (shown (board (interrupt_in 3) (cfg 1 0 0) 10 0 0 [])).
Proof. exists (st_of (fit (interrupt_in 3) 10 0 1 1 0 0)). split; [vm_compute; reflexivity|]. vm_compute. tauto. Qed.
(** With MLflow a figure of a fixed name is kept for the last plot only, while TensorBoard keeps one per plot. *)
Definition no_server : server content nat := {| experiments := []; runs := []; active := None |}.
Definition acts_of (c : config) (mi gs : nat) : list action := actions quiet 0 (initialize_callbacks [] c) (trace (st_of (fit quiet mi (val_every c) 1 1 gs gs))).
Theorem C84_mlflow_figures_refuted : exists srv r,
  ml_fit content nat simple one_figure no_server None None "a" "b" (acts_of (cfg 0 2 0) 6 0) true = Some srv /\ runs _ _ srv = [r] /\
  run_figures _ _ r = [("plot"%string, 6)] /\
  filter (fun x => match x with Figure _ _ _ => true | _ => false end) (shown (board quiet (cfg 0 2 0) 6 0 0 [])) =
    [Figure "plot" 0 0; Figure "plot" 2 2; Figure "plot" 4 4; Figure "plot" 6 6; Figure "plot" 6 6].
Proof. eexists _, _. split; [vm_compute; reflexivity|]. repeat split; vm_compute; reflexivity. Qed.
(** A training that is resumed becomes a new run of MLflow, even with MLFLOW_RUN_NAME set: no run holds the whole
    training, while the folder of TensorBoard does. *)
Theorem C84_mlflow_resume_refuted : exists srv1 srv2,
  ml_fit content nat simple one_figure no_server (Some "e"%string) (Some "r"%string) "a" "b" (acts_of (cfg 1 0 0) 3 0) true = Some srv1 /\
  ml_fit content nat simple one_figure srv1 (Some "e"%string) (Some "r"%string) "c" "d" (acts_of (cfg 1 0 0) 3 2) true = Some srv2 /\
  map (run_name _ _) (runs _ _ srv2) = ["r"; "r"]%string /\
  (forall r, In r (runs _ _ srv2) -> ~ (In ("train_loss"%string, OfTrain 1, 1) (run_metrics _ _ r) /\ In ("train_loss"%string, OfTrain 5, 5) (run_metrics _ _ r))) /\
  forall i, In i [1; 2; 3; 4; 5] -> In (Scalar "train_loss" (OfTrain i) i) (shown (board quiet (cfg 1 0 0) 3 2 2 (board quiet (cfg 1 0 0) 3 0 0 []))).
Proof.
  eexists _, _. split; [vm_compute; reflexivity|]. split; [vm_compute; reflexivity|]. split; [vm_compute; reflexivity|]. split.
  - intros r Hr. cbn in Hr. destruct Hr as [<- |[<- |[]]]; intros (A & B); cbn in A, B; repeat (destruct A as [A|A]; [try discriminate|]); repeat (destruct B as [B|B]; [try discriminate|]); tauto.
  - intros i Hi. vm_compute in Hi. destruct Hi as [<- |[<- |[<- |[<- |[<- |[]]]]]]; vm_compute; tauto.
Qed.
(** After a training that raised, the run of MLflow is still active, so that the next training raises before it starts. *)
Theorem C84_mlflow_failure_refuted : forall {V Fig} metrics_of pfs srv acts acts' ok e r e' r' f1 f2 f3 f4 srv',
  ml_fit V Fig metrics_of pfs srv e r f1 f2 acts false = Some srv' -> ml_fit V Fig metrics_of pfs srv' e' r' f3 f4 acts' ok = None.
Proof.
  intros V Fig mo pfs srv acts acts' ok e r e' r' f1 f2 f3 f4 srv'. unfold ml_fit at 1, ml_open at 1. destruct (active V Fig srv); [discriminate|]. intros [= <-]. reflexivity.
Qed.

(** ** Witnesses *)
Example C84_ex : exists s, fit quiet 4 2 1 1 0 0 = Ok s /\ no_writer [] /\ never_raises quiet /\
  wr (actions quiet 0 (initialize_callbacks [] (cfg 3 2 2)) (trace s)) = [(0, OfVal true 0); (2, OfVal false 2); (3, OfTrain 3); (4, OfVal false 4); (4, OfTrain 4)] /\
  pl (actions quiet 0 (initialize_callbacks [] (cfg 3 2 2)) (trace s)) = [0; 2; 4; 4].
Proof. exists (st_of (fit quiet 4 2 1 1 0 0)). split; [vm_compute; reflexivity|]. split; [intros kc []|]. split; [intros tr; reflexivity|]. split; vm_compute; reflexivity. Qed.
Example C84_printed_ex : printed nat [("acc"%string, 1); ("val_LOSS"%string, 2); ("loss"%string, 3)] = (Some ("val_LOSS"%string, Some 2), [("acc"%string, 1); ("loss"%string, 3)]).
Proof. vm_compute. reflexivity. Qed.
Example C84_mlflow_failure_ex : exists srv, ml_fit content nat simple one_figure no_server None None "a" "b" (acts_of (cfg 1 0 0) 2 0) false = Some srv.
Proof. eexists. reflexivity. Qed.

Print Assumptions C84_metrics.
Print Assumptions C84_one_value.
Print Assumptions C84_figures.
Print Assumptions C84_once.
Print Assumptions C84_rank.
Print Assumptions C84_mlflow.
Print Assumptions C84_printed.
Print Assumptions C84_signature.
Print Assumptions C84_dict_refuted.
Print Assumptions C84_end_refuted.
Print Assumptions C84_plot_disabled_refuted.
Print Assumptions C84_resume_validation_refuted.
Print Assumptions C84_refit_refuted.
Print Assumptions C84_interrupted_refuted.
Print Assumptions C84_mlflow_figures_refuted.
Print Assumptions C84_mlflow_resume_refuted.
Print Assumptions C84_mlflow_failure_refuted.
Print Assumptions C84_hyperparameters.
Print Assumptions C84_capitals.
