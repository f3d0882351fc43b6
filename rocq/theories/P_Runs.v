(** C78: what successive trainings do with folders and checkpoints. *)
From Coq Require Import List Arith Bool Lia.
From Verif Require Import M_Runs.
Import ListNotations.

(** * Folders *)
(** With one subfolder per run, [n] calls on one configuration. *)
Fixpoint calls (c : config) (ks : list clock) : list path * config :=
  match ks with
  | [] => ([], c)
  | k :: r => let c' := fst (initialize_folder c k) in let (l, c'') := calls c' r in (log_folder c' :: l, c'')
  end.

Lemma last_snoc : forall (A : Type) (l : list A) x d, last (l ++ [x]) d = x.
Proof. intros A l x d; induction l as [|a l IH]; [reflexivity |]. simpl. destruct (l ++ [x]) eqn:E; [destruct l; discriminate | exact IH]. Qed.

Lemma per_run_calls : forall ks c, per_run c = true ->
  fst (calls c ks) = map (fun e => Sub (root c) (S (length (subfolders c)) + fst e) (now (snd e)) (pid (snd e))) (combine (seq 0 (length ks)) ks).
Proof.
  assert (G : forall ks c m, per_run c = true -> fst (calls c ks) = map (fun e => Sub (root c) (S (length (subfolders c)) + (fst e - m)) (now (snd e)) (pid (snd e))) (combine (seq m (length ks)) ks)).
  { induction ks as [|k ks IH]; intros c m Hp; [reflexivity |].
    simpl. assert (E : initialize_folder c k = (set_folder (add_subfolder c k) (last_subfolder (add_subfolder c k)), true)).
    { unfold initialize_folder; rewrite Hp; reflexivity. }
    rewrite E; simpl. set (c' := set_folder _ _). specialize (IH c' (S m) Hp).
    destruct (calls c' ks) as [l c''] eqn:El. simpl in *. f_equal.
    - unfold last_subfolder; simpl. rewrite last_snoc. f_equal. lia.
    - rewrite IH. rewrite app_length; simpl. apply map_ext_in. intros [i x] Hi. simpl. f_equal.
      apply in_combine_l in Hi. apply in_seq in Hi. lia. }
  intros ks c Hp. rewrite (G ks c 0 Hp). apply map_ext. intros e. f_equal; lia.
Qed.

(** With one subfolder per run, the calls on one configuration never share a folder, whatever the clock says; none of
    them loads a checkpoint. *)
Theorem C78_per_run : forall c ks, per_run c = true -> NoDup (fst (calls c ks)) /\ forall k, snd (initialize_folder c k) = true.
Proof.
  intros c ks Hp; split; [| intros k; unfold initialize_folder; rewrite Hp; reflexivity].
  rewrite (per_run_calls ks c Hp).
  assert (G : forall ks m, NoDup (map (fun e : nat * clock => Sub (root c) (S (length (subfolders c)) + fst e) (now (snd e)) (pid (snd e))) (combine (seq m (length ks)) ks))).
  { clear ks. induction ks as [|k ks IH]; intros m; simpl; [constructor |]. constructor; [| apply IH].
    intros H. apply in_map_iff in H. destruct H as ([i x] & E & Hi). apply in_combine_l in Hi. apply in_seq in Hi.
    injection E; intros; simpl in *; lia. }
  apply G.
Qed.

(** Without, all calls on one configuration use one folder: the one the user gave, or one made by the first call. *)
Theorem C78_one_folder : forall c ks, per_run c = false ->
  exists f, (forall g, In g (fst (calls c ks)) -> g = f) /\ (subfolders c = [] -> log_folder c <> Dot -> f = log_folder c).
Proof.
  intros c ks Hp.
  assert (K : forall ks c, per_run c = false -> (subfolders c <> [] \/ log_folder c <> Dot) -> forall g, In g (fst (calls c ks)) -> g = log_folder c).
  { clear. induction ks as [|k ks IH]; intros c Hp Hs g Hg; [contradiction |]. simpl in Hg.
    assert (E : initialize_folder c k = (set_folder c (log_folder c), false)).
    { unfold initialize_folder; rewrite Hp. destruct (subfolders c); [| reflexivity]. destruct (log_folder c); [destruct Hs as [H | H]; contradiction | reflexivity | reflexivity]. }
    rewrite E in Hg. simpl in Hg. specialize (IH (set_folder c (log_folder c)) Hp Hs g).
    destruct (calls (set_folder c (log_folder c)) ks) as [l c'']. simpl in *. destruct Hg as [<- | Hg]; [reflexivity | apply IH; exact Hg]. }
  destruct ks as [|k ks]; [exists (log_folder c); split; [intros g [] | reflexivity] |].
  exists (log_folder (fst (initialize_folder c k))). split.
  - intros g Hg. simpl in Hg.
    assert (E : per_run (fst (initialize_folder c k)) = false /\ (subfolders (fst (initialize_folder c k)) <> [] \/ log_folder (fst (initialize_folder c k)) <> Dot)).
    { unfold initialize_folder; rewrite Hp. destruct (subfolders c) eqn:Es.
      - destruct (log_folder c) eqn:El; simpl; rewrite ?Hp; split; try reflexivity.
        + left. rewrite Es; discriminate.
        + right; discriminate.
        + right; discriminate.
      - simpl. rewrite Hp, Es. split; [reflexivity | left; discriminate]. }
    destruct E as [E1 E2]. pose proof (K ks _ E1 E2 g) as K'.
    destruct (calls (fst (initialize_folder c k)) ks) as [l c'']. simpl in *. destruct Hg as [<- | Hg]; [reflexivity | apply K'; exact Hg].
  - intros Es El. unfold initialize_folder; rewrite Hp, Es. destruct (log_folder c); [contradiction | reflexivity | reflexivity].
Qed.

Definition plain (l : path) (per : bool) : config :=
  {| root := 0; per_run := per; log_folder := l; subfolders := []; max_iter := 2; checkpoint_every := 1; val_every := 0; best_only := false |}.
Definition noon : clock := {| now := 43; pid := 17 |}.
Example three_runs : fst (calls (plain Dot true) [noon; noon; noon]) = [Sub 0 1 43 17; Sub 0 2 43 17; Sub 0 3 43 17] /\
  fst (calls (plain Dot false) [noon; noon]) = [Sub 0 1 43 17; Sub 0 1 43 17].
Proof. split; reflexivity. Qed.

(** Finding: names of subfolders are unique per configuration only.  Two configurations of one process used within the
    same second get the same folder, although each is told that it is new: they overwrite each other's checkpoints. *)
Theorem C78_collision_refuted : forall c c' k, root c = root c' -> length (subfolders c) = length (subfolders c') ->
  per_run c = true -> per_run c' = true ->
  log_folder (fst (initialize_folder c k)) = log_folder (fst (initialize_folder c' k)) /\ snd (initialize_folder c' k) = true.
Proof.
  intros c c' k Er El H H'. unfold initialize_folder. rewrite H, H'. simpl. split; [| reflexivity].
  unfold last_subfolder; simpl. rewrite !last_snoc, Er, El. reflexivity.
Qed.

(** Finding: a user who asks for the current folder gets a subfolder of the root instead. *)
Theorem C78_dot_refuted : forall c k, per_run c = false -> subfolders c = [] -> log_folder c = Dot ->
  log_folder (fst (initialize_folder c k)) = Sub (root c) 1 (now k) (pid k).
Proof. intros c k H Es El. unfold initialize_folder. rewrite H, Es, El. simpl. unfold last_subfolder; simpl. rewrite Es. reflexivity. Qed.

(** Finding: the folder the user gave is forgotten by a call with one subfolder per run: it is not used afterwards
    either, when the option is switched off again. *)
Definition per_run_off (c : config) : config :=
  {| root := root c; per_run := false; log_folder := log_folder c; subfolders := subfolders c;
     max_iter := max_iter c; checkpoint_every := checkpoint_every c; val_every := val_every c; best_only := best_only c |}.
Theorem C78_forgotten_refuted : forall c k k', per_run c = true ->
  let c' := per_run_off (fst (initialize_folder c k)) in
  log_folder (fst (initialize_folder c' k')) = log_folder (fst (initialize_folder c k)) /\
  log_folder (fst (initialize_folder c k)) = Sub (root c) (S (length (subfolders c))) (now k) (pid k).
Proof.
  intros c k k' H.
  assert (E : fst (initialize_folder c k) = set_folder (add_subfolder c k) (Sub (root c) (S (length (subfolders c))) (now k) (pid k))).
  { unfold initialize_folder; rewrite H. simpl. unfold last_subfolder; simpl. rewrite last_snoc. reflexivity. }
  cbv zeta. rewrite E. split; [| reflexivity].
  unfold initialize_folder, per_run_off; simpl. destruct (subfolders c); reflexivity.
Qed.

Section Runs.
  Variable P : Type.
  Notation numbered := (numbered P). Notation best := (best P). Notation disk := (disk P). Notation job := (job P).
  Notation folder := (folder P). Notation written := (written P). Notation perform := (perform P).

  (** * Checkpoints *)
  Lemma largest_snoc : forall l e, largest P (l ++ [e]) = match largest P l with None => Some e | Some a => if Nat.ltb (fst a) (fst e) then Some e else Some a end.
  Proof. intros l e; unfold largest; rewrite fold_left_app; simpl. destruct (fold_left _ l None); reflexivity. Qed.

  Lemma largest_max : forall l, match largest P l with None => l = [] | Some a => In a l /\ forall e, In e l -> fst e <= fst a end.
  Proof.
    intros l; induction l as [|e l IH] using rev_ind; [reflexivity |]. rewrite largest_snoc.
    destruct (largest P l) as [a|].
    - destruct IH as [Ha Hm]. destruct (Nat.ltb (fst a) (fst e)) eqn:L.
      + apply Nat.ltb_lt in L. split; [apply in_or_app; right; left; reflexivity |].
        intros x Hx. apply in_app_or in Hx. destruct Hx as [Hx | [<- | []]]; [specialize (Hm x Hx); lia | lia].
      + apply Nat.ltb_ge in L. split; [apply in_or_app; left; exact Ha |].
        intros x Hx. apply in_app_or in Hx. destruct Hx as [Hx | [<- | []]]; [apply Hm; exact Hx | exact L].
    - subst l. split; [left; reflexivity | intros x [<- | []]; lia].
  Qed.

  (** All numbers in a folder are at most [m]. *)
  Definition upto (x : files P) (m : nat) : Prop := forall e, In e (numbered x) -> fst e <= m.

  Lemma upto_save : forall x m n p, upto x m -> m <= n -> upto (save_number P x n p) n.
  Proof.
    intros x m n p H L e He. unfold save_number in He; simpl in He. apply in_app_or in He. destruct He as [He | [<- | []]]; [| simpl; lia].
    apply filter_In in He. destruct He as [He _]. specialize (H e He). lia.
  Qed.

  Lemma load_save : forall x n p, upto x n -> load P (save_number P x n p) = Number P n p.
  Proof.
    intros x n p H. unfold load, save_number; simpl. rewrite largest_snoc.
    set (l := filter _ (numbered x)). pose proof (largest_max l) as L. destruct (largest P l) as [a|]; [| reflexivity].
    destruct L as [Ha _]. unfold l in Ha. apply filter_In in Ha. destruct Ha as [Ha Hn]. apply negb_true_iff, Nat.eqb_neq in Hn.
    specialize (H a Ha). simpl. replace (Nat.ltb (fst a) n) with true by (symmetry; apply Nat.ltb_lt; lia). reflexivity.
  Qed.

  (** A sequence of numbered checkpoints with numbers that do not decrease, from [m] on. *)
  Fixpoint rising (m : nat) (l : list (write P)) : Prop :=
    match l with
    | [] => True
    | WriteNumber _ n p :: r => m <= n /\ rising n r
    | WriteBest _ _ :: _ => False
    end.
  Definition top (m : nat) (l : list (write P)) : nat := fold_left (fun a w => match w with WriteNumber _ n _ => n | WriteBest _ _ => a end) l m.

  Lemma rising_app : forall l r m, rising m l -> rising (top m l) r -> rising m (l ++ r).
  Proof.
    induction l as [|w l IH]; intros r m Hl Hr; [exact Hr |]. destruct w as [n p | p]; [| contradiction].
    simpl in *. destruct Hl as [L Hl]. split; [exact L | apply IH; assumption].
  Qed.
  Lemma rising_firstn : forall k l m, rising m l -> rising m (firstn k l).
  Proof.
    induction k as [|k IH]; intros [|[n p | p] l] m H; simpl in *; try exact I; [destruct H as [L H]; split; [exact L | apply IH; exact H] | exact H].
  Qed.
  Lemma rising_weaken : forall l m m', rising m l -> m' <= m -> rising m' l.
  Proof. intros [|[n p | p] l] m m' H L; simpl in *; [exact I | split; [lia | tauto] | exact H]. Qed.
  Lemma top_app : forall l r m, top m (l ++ r) = top (top m l) r.
  Proof. intros; unfold top; apply fold_left_app. Qed.

  Lemma upto_perform : forall l x m, upto x m -> rising m l -> upto (fold_left perform l x) (top m l).
  Proof.
    induction l as [|w l IH]; intros x m H R; [exact H |]. destruct w as [n p | p]; [| contradiction].
    simpl in *. destruct R as [L R]. apply (IH (save_number P x n p) n); [apply (upto_save x m n p H L) | exact R].
  Qed.
  Lemma best_perform : forall l x m, rising m l -> best (fold_left perform l x) = best x.
  Proof. induction l as [|[n p | p] l IH]; intros x m R; simpl in *; [reflexivity | rewrite (IH _ n); [reflexivity | tauto] | contradiction]. Qed.

  (** What is loaded after a rising sequence is its last element. *)
  Lemma load_last : forall l x m n p, upto x m -> rising m (l ++ [WriteNumber P n p]) ->
    load P (fold_left perform (l ++ [WriteNumber P n p]) x) = Number P n p.
  Proof.
    intros l x m n p H R. rewrite fold_left_app. simpl. apply load_save.
    assert (R1 : rising m l). { pose proof (rising_firstn (length l) _ _ R) as F. rewrite firstn_app, Nat.sub_diag, firstn_all in F. simpl in F. rewrite app_nil_r in F. exact F. }
    assert (L : top m l <= n).
    { clear H R1. revert m R. induction l as [|[a q | q] l IH]; intros m R; simpl in *; [tauto | apply IH; tauto | contradiction]. }
    intros e He. pose proof (upto_perform l x m H R1 e He). lia.
  Qed.

  (** * A training that keeps numbered checkpoints *)
  Definition keeps (c : config) : Prop := best_only c = false /\ checkpoint_every c <> 0.

  Lemma epochs_rising : forall c w n e t, best_only c = false -> current_epoch P t <= e ->
    rising (current_epoch P t) (snd (epochs P c w n e t)) /\
    current_epoch P t <= current_epoch P (fst (epochs P c w n e t)) /\
    top (current_epoch P t) (snd (epochs P c w n e t)) <= current_epoch P (fst (epochs P c w n e t)).
  Proof.
    intros c w n; induction n as [|n IH]; intros e t Hb L; simpl; [split; [exact I | split; [lia | unfold top; simpl; lia]] |].
    destruct (fates P w e); simpl.
    - rewrite Hb; simpl. set (t' := {| params := _; global_step := _; current_epoch := e |}).
      destruct (IH (S e) t' Hb) as (R & L1 & L2); [simpl; lia |]. simpl in R, L1, L2.
      destruct (due (checkpoint_every c) e); simpl.
      + split; [split; [exact L | exact R] | split; [lia | exact L2]].
      + split; [apply (rising_weaken _ _ _ R L) | split; [lia |]].
        destruct (snd (epochs P c w n (S e) t')) as [|[a q | q] r]; [unfold top; simpl; lia | exact L2 | contradiction].
    - split; [exact I | split; [lia | unfold top; simpl; lia]].
    - split; [exact I | split; [exact L | unfold top; simpl; exact L]].
  Qed.

  Lemma train_rising : forall c w t, best_only c = false -> current_epoch P t <= global_step P t ->
    rising (current_epoch P t) (snd (train P c w t)) /\
    (checkpoint_every c <> 0 -> exists l, snd (train P c w t) = l ++ [WriteNumber P (current_epoch P (fst (train P c w t))) (params P (fst (train P c w t)))]).
  Proof.
    intros c w t Hb L. unfold train. cbv zeta. cbn [fst snd].
    set (r := epochs P c w (S (max_iter c)) (global_step P t) t).
    destruct (epochs_rising c w (S (max_iter c)) (global_step P t) t Hb L) as (R & L1 & L2). fold r in R, L1, L2.
    rewrite Hb. cbn [andb negb app]. rewrite andb_true_r.
    set (first := if negb (Nat.eqb (val_every c) 0) then [WriteNumber P (current_epoch P t) (params P t)] else []).
    assert (F : rising (current_epoch P t) first /\ top (current_epoch P t) first = current_epoch P t).
    { unfold first. destruct (negb (Nat.eqb (val_every c) 0)); simpl; split; try exact I; try reflexivity. split; [lia | exact I]. }
    destruct F as [F1 F2]. split.
    - apply rising_app; [exact F1 |]. rewrite F2. apply rising_app; [exact R |].
      destruct (negb (Nat.eqb (checkpoint_every c) 0)); [split; [exact L2 | exact I] | exact I].
    - intros Hc. replace (negb (Nat.eqb (checkpoint_every c) 0)) with true by (symmetry; apply negb_true_iff, Nat.eqb_neq; exact Hc).
      exists (first ++ snd r). rewrite app_assoc. reflexivity.
  Qed.

  (** The folder was not made by this very call. *)
  Definition resumes (j : job) : Prop := snd (initialize_folder (conf P j) (at_ P j)) = false.
  Definition clean (x : files P) : Prop := best x = None.

  Lemma conf_same : forall j, best_only (conf_after P j) = best_only (conf P j) /\ checkpoint_every (conf_after P j) = checkpoint_every (conf P j).
  Proof.
    intros j; unfold conf_after, initialize_folder. destruct (per_run (conf P j)); [split; reflexivity |].
    destruct (subfolders (conf P j)); [destruct (log_folder (conf P j)); split; reflexivity | split; reflexivity].
  Qed.

  (** Where a training may start: in a folder it resumes from, without a "best" checkpoint, or in an empty folder with
      a trainer that has not been used (or has only resumed). *)
  Definition proper (j : job) (d : disk) : Prop :=
    (resumes j /\ clean (d (folder j))) \/ (d (folder j) = no_files P /\ current_epoch P (who P j) <= global_step P (who P j)).

  Lemma begins_step : forall j d, proper j d ->
    current_epoch P (begins P j d) <= global_step P (begins P j d) /\ upto (d (folder j)) (current_epoch P (begins P j d)).
  Proof.
    intros j d [[Hr Hc] | [Hn Hs]].
    - unfold begins, start. rewrite Hr. unfold load. unfold clean in Hc. rewrite Hc.
      pose proof (largest_max (numbered (d (folder j)))) as L. unfold upto.
      destruct (largest P (numbered (d (folder j)))) as [[n p]|]; simpl.
      + split; [lia | apply L].
      + split; [lia | rewrite L; intros e []].
    - split; [| rewrite Hn; intros e []].
      unfold begins, start. rewrite Hn. destruct (snd _); [exact Hs | simpl; lia].
  Qed.

  (** A process may die after any of the checkpoints it writes.  Whoever resumes from the folder then, with whatever
      configuration and trainer, begins with the last checkpoint that was written: its parameters and its iteration. *)
  Theorem C78_crash : forall (j j2 : job) k l n p (d : disk),
    best_only (conf P j) = false -> proper j d ->
    firstn k (written j d) = l ++ [WriteNumber P n p] ->
    resumes j2 -> folder j2 = folder j ->
    begins P j2 (crashed P j k d) = {| params := p; global_step := n; current_epoch := n |}.
  Proof.
    intros j j2 k l n p d Hb Hp E Hr2 Hf.
    destruct (begins_step j d Hp) as [S U].
    unfold begins at 1. rewrite Hr2, Hf. unfold crashed, put. destruct (path_dec (folder j) (folder j)); [| contradiction].
    rewrite E. unfold start.
    rewrite (load_last l (d (folder j)) (current_epoch P (begins P j d)) n p U); [reflexivity |].
    rewrite <- E. apply rising_firstn. unfold written. apply train_rising; [rewrite (proj1 (conf_same j)); exact Hb | lia].
  Qed.

  (** The checkpoints of a call are those of its epochs. *)
  Lemma crashed_all : forall j d, crashed P j (length (written j d)) d = fit P j d.
  Proof. intros; unfold crashed, fit; rewrite firstn_all; reflexivity. Qed.

  (** When checkpoints are kept, a further call on the folder begins exactly where this one ended. *)
  Theorem C78_continue : forall (j j2 : job) (d : disk), keeps (conf P j) -> proper j d ->
    resumes j2 -> folder j2 = folder j ->
    let e := ends P j d in
    begins P j2 (fit P j d) = {| params := params P e; global_step := current_epoch P e; current_epoch := current_epoch P e |}.
  Proof.
    intros j j2 d [Hb Hk] Hp Hr2 Hf e.
    destruct (begins_step j d Hp) as [S U].
    destruct (train_rising (conf_after P j) (work P j) (begins P j d)) as [_ T]; [rewrite (proj1 (conf_same j)); exact Hb | lia |].
    destruct T as [l T]; [rewrite (proj2 (conf_same j)); exact Hk |].
    rewrite <- crashed_all. apply (C78_crash j j2 _ l); try assumption. rewrite firstn_all. exact T.
  Qed.

  (** A call touches its own folder only. *)
  Theorem C78_frame : forall j d f, f <> folder j -> fit P j d f = d f.
  Proof. intros j d f H; unfold fit, put. destruct (path_dec f (folder j)); [contradiction | reflexivity]. Qed.

  (** * Histories *)
  Definition history (d : disk) (js : list job) : disk := fold_left (fun d j => fit P j d) js d.

  Lemma history_clean : forall js d f, (forall j, In j js -> folder j = f -> best_only (conf P j) = false /\ resumes j) -> clean (d f) -> clean (history d js f).
  Proof.
    induction js as [|j js IH]; intros d f H Hc; [exact Hc |]. simpl. apply IH; [intros x Hx; apply H; right; exact Hx |].
    destruct (path_dec f (folder j)) as [E | N]; [| unfold clean; rewrite C78_frame by exact N; exact Hc].
    destruct (H j (or_introl eq_refl) (eq_sym E)) as [Hb Hr]. subst f. unfold clean, fit, put.
    destruct (path_dec (folder j) (folder j)); [| contradiction].
    destruct (begins_step j d (or_introl (conj Hr Hc))) as [S _].
    rewrite (best_perform (written j d) (d (folder j)) (current_epoch P (begins P j d))); [exact Hc |].
    unfold written. apply train_rising; [rewrite (proj1 (conf_same j)); exact Hb | lia].
  Qed.

  Lemma history_frame : forall js d f, (forall j, In j js -> folder j <> f) -> history d js f = d f.
  Proof.
    induction js as [|j js IH]; intros d f H; [reflexivity |]. simpl. rewrite IH; [| intros x Hx; apply H; right; exact Hx].
    apply C78_frame. intros E. apply (H j (or_introl eq_refl)). symmetry; exact E.
  Qed.

  (** Over any history of calls, by any trainers and with any configurations, on any folders: a call on a folder begins
      where the last call on that folder ended, provided those that used the folder keep no "best" checkpoint there
      and the last one keeps checkpoints. *)
  Theorem C78_history : forall (d : disk) (before between : list job) (j j2 : job),
    clean (d (folder j)) ->
    (forall x, In x before -> folder x = folder j -> best_only (conf P x) = false /\ resumes x) ->
    keeps (conf P j) -> resumes j ->
    (forall x, In x between -> folder x <> folder j) ->
    resumes j2 -> folder j2 = folder j ->
    let e := ends P j (history d before) in
    begins P j2 (history d (before ++ j :: between)) =
      {| params := params P e; global_step := current_epoch P e; current_epoch := current_epoch P e |}.
  Proof.
    intros d before between j j2 Hc Hb Hk Hr Hn Hr2 Hf e.
    assert (E : begins P j2 (history d (before ++ j :: between)) = begins P j2 (fit P j (history d before))).
    { unfold begins. f_equal. rewrite Hf. unfold history. rewrite fold_left_app. simpl. apply (history_frame between (fit P j (history d before)) (folder j) Hn). }
    rewrite E. apply C78_continue; try assumption. left; split; [exact Hr | apply history_clean; assumption].
  Qed.

  (** With neither checkpoints nor validation nothing is written, so a further call goes on with the parameters in
      memory, counting its epochs from 0 again. *)
  Theorem C78_memory : forall (j : job) (d : disk), best_only (conf P j) = false -> checkpoint_every (conf P j) = 0 -> val_every (conf P j) = 0 ->
    written j d = [] /\
    forall j2, d (folder j2) = no_files P -> resumes j2 -> who P j2 = ends P j d ->
      begins P j2 (fit P j d) = {| params := params P (ends P j d); global_step := 0; current_epoch := 0 |}.
  Proof.
    intros j d Hb Hk Hv.
    assert (V : val_every (conf_after P j) = 0).
    { unfold conf_after, initialize_folder. destruct (per_run (conf P j)); [exact Hv |].
      destruct (subfolders (conf P j)); [destruct (log_folder (conf P j)); exact Hv | exact Hv]. }
    destruct (conf_same j) as [B K]. rewrite Hb in B. rewrite Hk in K.
    assert (W : written j d = []).
    { unfold written, train. cbv zeta. cbn [snd]. rewrite B, K, V. cbn [andb negb app Nat.eqb].
      assert (G : forall n e t, snd (epochs P (conf_after P j) (work P j) n e t) = []).
      { induction n as [|n IH]; intros e t; simpl; [reflexivity |]. destruct (fates P (work P j) e); try reflexivity.
        simpl. rewrite B, K. simpl. apply IH. }
      rewrite app_nil_r. apply G. }
    split; [exact W |]. intros j2 H2 Hr2 Hw.
    assert (E : fit P j d (folder j2) = no_files P).
    { unfold fit, put. rewrite W. simpl. destruct (path_dec (folder j2) (folder j)) as [E | N]; [rewrite <- E; exact H2 | exact H2]. }
    unfold begins at 1. rewrite E, Hr2. unfold start; simpl. rewrite Hw. reflexivity.
  Qed.
End Runs.

(** * Concrete trainings: the parameters are the number of epochs trained *)
Definition count : training nat := {| epoch := fun _ n => S n; fates := fun _ => Go; improves := fun e => Nat.eqb e 1 |}.
Definition newcomer : trainer nat := {| params := 0; global_step := 0; current_epoch := 0 |}.
Definition empty_disk : disk nat := fun _ => no_files nat.
Definition job_with (c : config) (t : trainer nat) : job nat := {| at_ := noon; work := count; conf := c; who := t |}.

Example keeps_and_resumes : keeps (conf nat (job_with (plain (Given 3) false) newcomer)) /\ resumes nat (job_with (plain (Given 3) false) newcomer).
Proof. split; [split; [reflexivity | discriminate] | reflexivity]. Qed.

(** The same when the folder is made by the first call. *)
Example keeps_in_a_new_folder : let j := job_with (plain Dot false) newcomer in
  proper nat j empty_disk /\ ~ resumes nat j /\ resumes nat (job_with (conf_after nat j) newcomer) /\
  folder nat (job_with (conf_after nat j) newcomer) = folder nat j.
Proof. split; [right; split; [reflexivity | simpl; lia] | split; [discriminate | split; reflexivity]]. Qed.

(** A new trainer with a new model resumes after three epochs (numbered 0, 1 and 2). *)
Example resumed : let j := job_with (plain (Given 3) false) newcomer in
  ends nat j empty_disk = {| params := 3; global_step := 0; current_epoch := 2 |} /\
  begins nat j (fit nat j empty_disk) = {| params := 3; global_step := 2; current_epoch := 2 |} /\
  written nat j empty_disk = [WriteNumber nat 1 2; WriteNumber nat 2 3; WriteNumber nat 2 3].
Proof. split; [reflexivity | split; reflexivity]. Qed.

(** Finding: with validation and the default of no checkpoints, the only checkpoint is the one written before the
    first epoch: a second call of fit on the same trainer begins with the parameters the first one began with, and what
    was learnt is lost. *)
Definition validating : config :=
  {| root := 0; per_run := false; log_folder := Given 3; subfolders := []; max_iter := 2; checkpoint_every := 0; val_every := 1; best_only := false |}.
Theorem C78_lost_refuted : let j := job_with validating newcomer in
  let j2 := job_with (conf_after nat j) (ends nat j empty_disk) in
  params nat (who nat j2) = 3 /\ params nat (begins nat j2 (fit nat j empty_disk)) = 0.
Proof. split; reflexivity. Qed.

(** Finding: when only the best model is kept, a second call on the same trainer goes back to it. *)
Definition choosy : config :=
  {| root := 0; per_run := false; log_folder := Given 3; subfolders := []; max_iter := 2; checkpoint_every := 0; val_every := 1; best_only := true |}.
Theorem C78_best_refuted : let j := job_with choosy newcomer in
  let j2 := job_with (conf_after nat j) (ends nat j empty_disk) in
  params nat (who nat j2) = 3 /\ params nat (begins nat j2 (fit nat j empty_disk)) = 2.
Proof. split; reflexivity. Qed.

(** Finding: a second call with its own subfolder writes the parameters it starts from under the number of the last
    epoch of the first call.  If it is stopped early, its folder offers them as the latest checkpoint. *)
Definition stopped_early : training nat := {| epoch := fun _ n => S n; fates := fun e => if Nat.eqb e 1 then Stop else Go; improves := fun _ => false |}.
Definition per_run_validating : config :=
  {| root := 0; per_run := true; log_folder := Dot; subfolders := []; max_iter := 2; checkpoint_every := 1; val_every := 1; best_only := false |}.
Theorem C78_stale_refuted : let j := job_with per_run_validating newcomer in
  let d1 := fit nat j empty_disk in
  let j2 := {| at_ := noon; work := stopped_early; conf := conf_after nat j; who := ends nat j empty_disk |} in
  let d2 := fit nat j2 d1 in
  let later := job_with (plain (folder nat j2) false) newcomer in
  params nat (ends nat j2 d1) = 4 /\ folder nat later = folder nat j2 /\ params nat (begins nat later d2) = 3.
Proof. split; [reflexivity | split; reflexivity]. Qed.

Print Assumptions C78_per_run.
Print Assumptions C78_one_folder.
Print Assumptions C78_crash.
Print Assumptions C78_history.
Print Assumptions C78_memory.
Print Assumptions C78_stale_refuted.
