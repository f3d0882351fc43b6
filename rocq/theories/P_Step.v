(** C79: the losses an optimiser works with and the losses that are reported. *)
From Coq Require Import String Reals List Arith Bool Lia Lra.
From Coq Require Import List.
From Verif Require Import M_Dataset P_Dataset M_Step.
Import ListNotations.
Open Scope R_scope.

(** * With gradients *)
Section Gradient.
  Variable loss : vec -> R * metrics.
  Variable grad : vec -> vec.

  (** Specification: what an optimiser does when every evaluation at [p] tells it the loss and the gradient at [p]. *)
  Fixpoint final (s : stepper) : vec :=
    match s with Finish p => p | Evaluate p next => final (next (fst (loss p)) (grad p)) end.
  (** The points it evaluates, in order. *)
  Fixpoint visits (s : stepper) : list vec :=
    match s with Finish _ => [] | Evaluate p next => p :: visits (next (fst (loss p)) (grad p)) end.

  Lemma run_stepper_spec : forall s g seen, let r := run_stepper loss grad s g seen in
    fst (fst r) = final s /\
    snd (fst r) = match rev (visits s) with [] => seen | p :: _ => Some (loss p) end /\
    snd r = match rev (visits s) with [] => g | p :: _ => Some (grad p) end.
  Proof.
    induction s as [p | p next IH]; intros g seen; simpl; [repeat split |].
    destruct (loss p) as [l m] eqn:E. simpl. specialize (IH l (grad p) (Some (grad p)) (Some (l, m))). cbv zeta in IH.
    destruct IH as (A & B & D). split; [exact A |]. rewrite B, D.
    destruct (rev (visits (next l (grad p)))) as [|q r] eqn:V; simpl; [rewrite E; split; reflexivity | split; reflexivity].
  Qed.

  (** Whatever gradients were left behind by earlier steps, the optimiser sees at every evaluation the loss and the
      gradient of the parameters it evaluates; what is returned are the loss and the metrics of its last evaluation. *)
  Theorem C79_gradients : forall s g,
    fst (fst (optimize_step loss grad s g)) = final s /\
    snd (fst (optimize_step loss grad s g)) = match rev (visits s) with [] => None | p :: _ => Some (loss p) end.
  Proof. intros s g. destruct (run_stepper_spec s g None) as (A & B & _). split; [exact A | exact B]. Qed.

  (** An optimiser that evaluates once, first, at the parameters of the model (SGD, Adam) reports the loss the model had
      before the step. *)
  Theorem C79_before : forall p update g,
    optimize_step loss grad (Evaluate p (fun l d => Finish (update l d))) g = (update (fst (loss p)) (grad p), Some (loss p), Some (grad p)).
  Proof. intros p update g. unfold optimize_step; simpl. destruct (loss p); reflexivity. Qed.
End Gradient.

(** Finding: so the loss reported with the updated model is not the loss of that model. *)
Theorem C79_after_refuted : exists loss grad s g p l, optimize_step loss grad s g = (p, Some l, Some [2]) /\ loss p <> l.
Proof.
  exists (fun p => (hd 0 p * hd 0 p, [])), (fun p => [2 * hd 0 p]), (Evaluate [1] (fun _ d => Finish [1 - hd 0 d / 2])), None, [0], (1, []).
  split.
  - unfold optimize_step; simpl. repeat f_equal; lra.
  - simpl. intros [= H]. lra.
Qed.

(** Finding: an optimiser that does not evaluate its closure leaves no loss to report. *)
Theorem C79_no_loss_refuted : forall loss grad p g, snd (fst (optimize_step loss grad (Finish p) g)) = None.
Proof. reflexivity. Qed.

(** * Without gradients *)
Section GradientFree.
  Variables Opt Data : Type.
  Variable tell : Opt -> vec -> R -> Opt.
  Variable ask : Opt -> Opt * vec.
  Variable loss_fn : list (param R) -> Data -> R.
  Notation trainer := (trainer Opt Data).
  Notation happen := (happen Opt Data tell ask loss_fn).
  Notation history := (history Opt Data tell ask loss_fn).
  Notation batch := (batch Opt Data tell ask loss_fn).
  Notation batches := (batches Opt Data tell ask loss_fn).
  Notation fit := (fit Opt Data tell ask loss_fn).
  Notation model := (model Opt Data). Notation ng_params := (ng_params Opt Data). Notation told := (told Opt Data).

  (** The optimiser suggests vectors with as many entries as the model has trainable ones. *)
  Variable n : nat.
  Hypothesis suggests : forall o, length (snd (ask o)) = n.
  (** The models a trainer meets have [n] trainable entries, in at least one parameter. *)
  Definition sized (m : list (param R)) : Prop := filter requires_grad m <> [] /\ total m = n.
  (** Every report is about the parameters the model had. *)
  Definition truthful (l : list (list (param R) * Data * vec * R)) : Prop :=
    forall m d c v, In (m, d, c, v) l -> get_parameters m = Some c /\ v = loss_fn m d.

  Lemma set_total : forall (m : list (param R)) theta, total (fst (set_parameters m theta)) = total m /\
    (filter requires_grad m <> [] -> filter requires_grad (fst (set_parameters m theta)) <> []).
  Proof.
    intros m theta. pose proof (C36_frame m theta) as F. revert F. generalize (fst (set_parameters m theta)). intros m' F.
    induction F as [|p q l l' H F IH]; [split; [reflexivity | intros H; exact H] |].
    destruct IH as [T G]. destruct H as (A & _ & D & _). simpl. rewrite <- A. destruct (requires_grad p).
    - split; [rewrite T, D; reflexivity | intros _; discriminate].
    - split; [exact T | exact G].
  Qed.

  Lemma batch_truthful : forall t d t', sized (model t) -> get_parameters (model t) = Some (ng_params t) -> truthful (told t) ->
    batch t d = Some t' -> sized (model t') /\ get_parameters (model t') = Some (ng_params t') /\ truthful (told t').
  Proof.
    intros t d t' Hs Hg Ht. unfold M_Step.batch.
    destruct (ask (tell (optimizer Opt Data t) (ng_params t) (loss_fn (model t) d))) as [o c] eqn:E.
    assert (Lc : length c = n) by (rewrite <- (suggests (tell (optimizer Opt Data t) (ng_params t) (loss_fn (model t) d))), E; reflexivity).
    destruct Hs as [Hs1 Hs2].
    destruct (C36_set_get (model t) c Hs1) as (m' & Em & Gm); [lia |]. 
    pose proof (set_total (model t) c) as [T F]. rewrite Em in *. simpl in T, F. intros [= <-]; simpl.
    split; [split; [apply F; exact Hs1 | rewrite T; exact Hs2] |]. split; [exact Gm |].
    intros m d' c' v Hin. apply in_app_or in Hin. destruct Hin as [Hin | [Hin | []]]; [apply Ht; exact Hin |].
    injection Hin as <- <- <- <-. split; [exact Hg | reflexivity].
  Qed.

  Lemma batches_truthful : forall ds t t', sized (model t) -> get_parameters (model t) = Some (ng_params t) -> truthful (told t) ->
    batches t ds = Some t' -> sized (model t') /\ get_parameters (model t') = Some (ng_params t') /\ truthful (told t').
  Proof.
    induction ds as [|d ds IH]; intros t t' Hs Hg Ht E; simpl in E; [injection E as <-; tauto |].
    destruct (batch t d) as [t1|] eqn:B; [| discriminate]. destruct (batch_truthful t d t1 Hs Hg Ht B) as (A1 & A2 & A3).
    exact (IH t1 t' A1 A2 A3 E).
  Qed.

  (** The models of the events have the right size. *)
  Definition fitting (e : event Opt Data) : Prop :=
    match e with Fit _ _ (Some (m, _)) _ => sized m | Fit _ _ None _ => True | Change _ _ m => sized m end.

  Lemma happen_truthful : forall t e t', sized (model t) -> truthful (told t) -> fitting e -> happen t e = Some t' ->
    sized (model t') /\ truthful (told t').
  Proof.
    intros t e t' Hs Ht He E. destruct e as [ck ds | m]; simpl in E.
    - unfold M_Step.fit in E. destruct ck as [[m o]|]; simpl in E.
      + unfold assign_optimizer in E. simpl in E. simpl in He. destruct (get_parameters m) as [p|] eqn:G; [| discriminate]. simpl in E. rewrite G in E. simpl in E.
        apply batches_truthful in E; simpl; [tauto | exact He | exact G | exact Ht].
      + unfold assign_optimizer in E. destruct (get_parameters (model t)) as [p|] eqn:G; [| discriminate]. simpl in E.
        apply batches_truthful in E; simpl; [tauto | exact Hs | exact G | exact Ht].
    - injection E as <-. simpl. split; [exact He | exact Ht].
  Qed.

  (** Over any history of calls of fit, with or without checkpoints, and of changes of the model by the user in
      between: every loss the optimiser is told is the loss, on the batch, of the very parameters it is told with. *)
  Theorem C79_told : forall es t t', sized (model t) -> told t = [] -> Forall fitting es -> history t es = Some t' -> truthful (told t').
  Proof.
    assert (G : forall es t t', sized (model t) -> truthful (told t) -> Forall fitting es -> history t es = Some t' -> truthful (told t')).
    { induction es as [|e es IH]; intros t t' Hs Ht Hf E; simpl in E; [injection E as <-; exact Ht |].
      inversion Hf; subst. destruct (happen t e) as [t1|] eqn:H; [| discriminate].
      destruct (happen_truthful t e t1 Hs Ht H1 H) as [A1 A2]. exact (IH t1 t' A1 A2 H2 E). }
    intros es t t' Hs Ht. apply G; [exact Hs | rewrite Ht; intros m d c v []].
  Qed.

  (** And no call fails. *)
  Theorem C79_succeeds : forall es t, sized (model t) -> Forall fitting es -> exists t', history t es = Some t'.
  Proof.
    assert (Gp : forall m, sized m -> exists p, get_parameters m = Some p).
    { intros m [H _]. unfold get_parameters. destruct (filter requires_grad m); [contradiction | eexists; reflexivity]. }
    assert (B : forall ds t, sized (model t) -> exists t', batches t ds = Some t' /\ sized (model t')).
    { induction ds as [|d ds IH]; intros t Hs; [exists t; split; [reflexivity | exact Hs] |]. simpl. unfold M_Step.batch.
      destruct (ask (tell (optimizer Opt Data t) (ng_params t) (loss_fn (model t) d))) as [o c] eqn:E.
      assert (Lc : length c = n) by (rewrite <- (suggests (tell (optimizer Opt Data t) (ng_params t) (loss_fn (model t) d))), E; reflexivity).
      destruct Hs as [Hs1 Hs2]. destruct (C36_set_get (model t) c Hs1) as (m' & Em & _); [lia |].
      pose proof (set_total (model t) c) as [T F]. rewrite Em in *. simpl in T, F. apply IH. simpl. split; [apply F; exact Hs1 | rewrite T; exact Hs2]. }
    induction es as [|e es IH]; intros t Hs Hf; [exists t; reflexivity |]. inversion Hf; subst. simpl.
    destruct e as [[[m o]|] ds | m]; simpl in *.
    - unfold M_Step.fit, load_checkpoint, assign_optimizer; simpl. destruct (Gp m H1) as [p G]. rewrite G. simpl. rewrite G. simpl.
      destruct (B ds {| M_Step.model := m; optimizer := o; M_Step.ng_params := p; M_Step.told := told t |} H1) as (t' & E & S). rewrite E. apply IH; assumption.
    - unfold M_Step.fit, load_checkpoint, assign_optimizer; simpl. destruct (Gp (model t) Hs) as [p G]. rewrite G. simpl.
      destruct (B ds {| M_Step.model := model t; optimizer := optimizer Opt Data t; M_Step.ng_params := p; M_Step.told := told t |} Hs) as (t' & E & S). rewrite E. apply IH; assumption.
    - apply IH; assumption.
  Qed.

  (** After a batch the model holds the optimiser's newest suggestion, whose loss nobody has computed. *)
  Theorem C79_newest : forall t d t', sized (model t) -> batch t d = Some t' ->
    get_parameters (model t') = Some (snd (ask (tell (optimizer Opt Data t) (ng_params t) (loss_fn (model t) d)))).
  Proof.
    intros t d t' [Hs1 Hs2]. unfold M_Step.batch. pose proof (suggests (tell (optimizer Opt Data t) (ng_params t) (loss_fn (model t) d))) as L.
    destruct (ask (tell (optimizer Opt Data t) (ng_params t) (loss_fn (model t) d))) as [o c]. simpl in L.
    destruct (C36_set_get (model t) c Hs1) as (m' & Em & Gm); [lia |]. rewrite Em. intros [= <-]. exact Gm.
  Qed.
End GradientFree.

(** Finding: fit therefore returns the last suggestion, not the best parameters it has seen: every loss told was better
    than the loss of the model that is returned. *)
Definition one (x : R) : list (param R) := [{| requires_grad := true; shape := [1%nat]; entries := [x] |}].
Definition value (m : list (param R)) (_ : unit) : R := match m with [p] => hd 0 (entries p) | _ => 0 end.
Definition climb_ask (x : R) : R * vec := (x + 1, [x + 1]).
Definition climber : trainer R unit := {| model := one 0; optimizer := 0; ng_params := []; told := [] |}.
Theorem C79_last_refuted : exists t', fit R unit (fun o _ _ => o) climb_ask value climber None [tt; tt] = Some t' /\
  (length (told R unit t') = 2)%nat /\ forall m d c v, In (m, d, c, v) (told R unit t') -> v < value (model R unit t') tt.
Proof.
  eexists. split; [reflexivity |]. simpl. split; [reflexivity |].
  intros m d c v [[= <- <- <- <-] | [[= <- <- <- <-] | []]]; unfold value; simpl; lra.
Qed.

Example climber_is_sized : sized 1 (model R unit climber) /\ (forall o, length (snd (climb_ask o)) = 1%nat) /\
  Forall (fitting R unit 1) [Fit R unit None [tt]; Change R unit (one 5); Fit R unit (Some (one 7, 3)) [tt; tt]].
Proof.
  split; [split; [discriminate | reflexivity] |]. split; [reflexivity |].
  constructor; [exact I |]. constructor; [split; [discriminate | reflexivity] |]. constructor; [split; [discriminate | reflexivity] | constructor].
Qed.

(** * What is reported *)
Lemma lookup_assign : forall k v m, lookup k (assign k v m) = Some v.
Proof.
  intros k v m; induction m as [|[k' v'] m IH]; simpl; [rewrite String.eqb_refl; reflexivity |].
  destruct (String.eqb k' k) eqn:E; simpl; [rewrite String.eqb_refl; reflexivity | rewrite E; exact IH].
Qed.
Lemma lookup_assign_other : forall k k' v m, k <> k' -> lookup k' (assign k v m) = lookup k' m.
Proof.
  intros k k' v m N; induction m as [|[a w] m IH]; simpl.
  - destruct (String.eqb k k') eqn:E; [apply String.eqb_eq in E; contradiction | reflexivity].
  - destruct (String.eqb a k) eqn:E; simpl.
    + apply String.eqb_eq in E; subst a. destruct (String.eqb k k') eqn:E'; [apply String.eqb_eq in E'; contradiction | reflexivity].
    + destruct (String.eqb a k'); [reflexivity | exact IH].
Qed.
Lemma append_inj : forall p a b, (p ++ a)%string = (p ++ b)%string -> a = b.
Proof. induction p as [|c p IH]; intros a b H; [exact H |]. simpl in H. injection H as H. apply IH; exact H. Qed.
Lemma lookup_prefix : forall p k m, lookup (p ++ k)%string (map (fun kv => ((p ++ fst kv)%string, snd kv)) m) = lookup k m.
Proof.
  intros p k m; induction m as [|[a v] m IH]; simpl; [reflexivity |].
  destruct (String.eqb a k) eqn:E.
  - apply String.eqb_eq in E; subst a. rewrite String.eqb_refl. reflexivity.
  - destruct (String.eqb (p ++ a) (p ++ k)) eqn:E'; [apply String.eqb_eq, append_inj in E'; apply String.eqb_neq in E; contradiction | exact IH].
Qed.
Lemma append_assoc : forall a b c, ((a ++ b) ++ c = a ++ (b ++ c))%string.
Proof. induction a as [|x a IH]; intros b c; simpl; [reflexivity | rewrite IH; reflexivity]. Qed.

(** Every metric of a batch is reported under its name with the phase in front, next to the loss. *)
Theorem C79_metrics : forall ph l m k, k <> "loss"%string ->
  fst (modify ph (l, m)) = l /\ lookup (ph ++ "_loss") (snd (modify ph (l, m))) = Some l /\
  lookup (ph ++ "_" ++ k) (snd (modify ph (l, m))) = lookup k m.
Proof.
  intros ph l m k N. unfold modify; simpl fst; simpl snd. split; [reflexivity |]. split; [apply lookup_assign |].
  rewrite lookup_assign_other.
  - rewrite <- append_assoc. rewrite <- (lookup_prefix (ph ++ "_") k m). f_equal. apply map_ext. intros kv. rewrite append_assoc. reflexivity.
  - intros E. apply append_inj in E. simpl in E. injection E as E. apply N. symmetry; exact E.
Qed.

(** Finding: a metric the user calls "loss" is overwritten. *)
Theorem C79_loss_metric_refuted : lookup "train_loss" (snd (modify "train" (1, [("loss"%string, 5)]))) = Some 1.
Proof. reflexivity. Qed.

Lemma gather_spec : forall k bs vs, gather k bs = Some vs <-> map (fun b => lookup k (snd b)) bs = map Some vs.
Proof.
  intros k bs; induction bs as [|b bs IH]; intros vs; simpl.
  - split; [intros [= <-]; reflexivity | destruct vs; [reflexivity | discriminate]].
  - destruct (lookup k (snd b)) as [v|] eqn:E.
    + destruct (gather k bs) as [ws|] eqn:G.
      * split; [intros [= <-]; simpl; f_equal; apply IH; reflexivity |].
        destruct vs as [|u us]; [discriminate |]. simpl. intros [= -> H]. apply IH in H. injection H as ->. reflexivity.
      * split; [discriminate |]. destruct vs as [|u us]; [discriminate |]. simpl. intros [= _ H]. apply IH in H. discriminate.
    + split; [discriminate | destruct vs; discriminate].
Qed.

(** The result of an epoch: the mean over its batches of the loss and of every metric of its first batch, provided all
    batches have these metrics. *)
Theorem C79_epoch : forall bs l m, build_result bs = Reported l m ->
  bs <> [] /\ l = mean (map fst bs) /\ map fst m = map fst (snd (hd (0, []) bs)) /\
  forall k v, In (k, v) m -> exists vs, map (fun b => lookup k (snd b)) bs = map Some vs /\ v = mean vs.
Proof.
  intros [|b bs] l m; [discriminate |]. unfold build_result.
  assert (A : forall ks m', averages ks (b :: bs) = Some m' -> map fst m' = ks /\
    forall k v, In (k, v) m' -> exists vs, map (fun b => lookup k (snd b)) (b :: bs) = map Some vs /\ v = mean vs).
  { induction ks as [|k ks IH]; intros m' H; cbn [averages] in H.
    - injection H as <-. split; [reflexivity | intros k v []].
    - destruct (gather k (b :: bs)) as [vs|] eqn:G; [| discriminate]. destruct (averages ks (b :: bs)) as [r|] eqn:E; [| discriminate].
      injection H as <-. destruct (IH r eq_refl) as [I1 I2]. split; [simpl; f_equal; exact I1 |].
      intros k' v [[= <- <-] | Hin]; [exists vs; split; [apply gather_spec; exact G | reflexivity] | apply I2; exact Hin]. }
  destruct (averages (map fst (snd b)) (b :: bs)) as [r|] eqn:E; [| discriminate]. intros [= <- <-].
  destruct (A _ _ E) as [A1 A2]. split; [discriminate |]. split; [reflexivity |]. split; [exact A1 | exact A2].
Qed.

(** It fails exactly when some later batch lacks a metric of the first one. *)
Theorem C79_missing : forall b bs, build_result (b :: bs) = MissingMetric <->
  exists k x, In k (map fst (snd b)) /\ In x (b :: bs) /\ lookup k (snd x) = None.
Proof.
  intros b bs. unfold build_result.
  assert (G : forall k l, gather k l = None <-> exists x, In x l /\ lookup k (snd x) = None).
  { intros k l; induction l as [|x l IH]; simpl; [split; [discriminate | intros (y & [] & _)] |].
    destruct (lookup k (snd x)) as [v|] eqn:E.
    - destruct (gather k l) as [vs|].
      + split; [discriminate |]. intros (y & [<- | Hy] & N); [congruence |]. exfalso. assert (Some vs = None) by (apply IH; exists y; split; assumption). discriminate.
      + split; [| reflexivity]. intros _. destruct (proj1 IH eq_refl) as (y & Hy & N). exists y; split; [right; exact Hy | exact N].
    - split; [| reflexivity]. intros _. exists x; split; [left; reflexivity | exact E]. }
  assert (A : forall ks, averages ks (b :: bs) = None <-> exists k x, In k ks /\ In x (b :: bs) /\ lookup k (snd x) = None).
  { induction ks as [|k ks IH]; cbn [averages]; [split; [discriminate | intros (k & x & [] & _)] |].
    destruct (gather k (b :: bs)) as [vs|] eqn:E.
    - destruct (averages ks (b :: bs)) as [r|].
      + split; [discriminate |]. intros (k' & x & [<- | Hk] & Hx & N).
        * assert (H : gather k (b :: bs) = None) by (apply G; exists x; split; assumption). congruence.
        * exfalso. assert (Some r = None) by (apply IH; exists k', x; split; [exact Hk | split; assumption]). discriminate.
      + split; [| reflexivity]. intros _. destruct (proj1 IH eq_refl) as (k' & x & Hk & Hx & N). exists k', x. split; [right; exact Hk | split; assumption].
    - split; [| reflexivity]. intros _. apply G in E. destruct E as (x & Hx & N). exists k, x. split; [left; reflexivity | split; assumption]. }
  destruct (averages (map fst (snd b)) (b :: bs)) as [r|] eqn:E.
  - split; [discriminate |]. intros H. apply A in H. congruence.
  - split; [| reflexivity]. intros _. apply A. exact E.
Qed.

(** The mean over batches of equal size is the mean over the samples ... *)
Lemma sum_app : forall a b, fold_right Rplus 0 (a ++ b) = fold_right Rplus 0 a + fold_right Rplus 0 b.
Proof. induction a as [|x a IH]; intros b; simpl; [lra | rewrite IH; lra]. Qed.
Theorem C79_samples : forall (bs : list (list R)) n, (0 < n)%nat -> bs <> [] -> (forall b, In b bs -> length b = n) ->
  mean (map mean bs) = mean (concat bs).
Proof.
  intros bs n Hn Hb H. unfold mean at 1 3. rewrite map_length.
  assert (L : (length (concat bs) = n * length bs)%nat).
  { clear Hb. induction bs as [|b bs IH]; simpl; [lia |]. rewrite app_length, IH by (intros x Hx; apply H; right; exact Hx). rewrite (H b) by (left; reflexivity). lia. }
  assert (S : fold_right Rplus 0 (map mean bs) * INR n = fold_right Rplus 0 (concat bs)).
  { clear Hb L. induction bs as [|b bs IH]; simpl; [lra |]. rewrite sum_app, <- IH by (intros x Hx; apply H; right; exact Hx).
    unfold mean. rewrite (H b) by (left; reflexivity). field. apply not_0_INR; lia. }
  rewrite L, mult_INR, <- S. assert (INR n <> 0) by (apply not_0_INR; lia).
  assert (INR (length bs) <> 0) by (apply not_0_INR; destruct bs; [contradiction | simpl; lia]). field. split; assumption.
Qed.
(** Finding: ... and for a smaller last batch it is not. *)
Theorem C79_samples_refuted : mean (map mean [[0; 0]; [3]]) <> mean (concat [[0; 0]; [3]]).
Proof. unfold mean; simpl. intros H. field_simplify in H; lra. Qed.

(** * Mean squared error *)
(** On columns it vanishes exactly for perfect predictions. *)
Theorem C79_mse : forall o t, length o = length t -> o <> [] -> (mse_columns o t = 0 <-> o = t).
Proof.
  intros o t L N.
  assert (P : forall o t, 0 <= fold_right Rplus 0 (map (fun ab => square (fst ab - snd ab)) (combine o t))).
  { clear. induction o as [|a o IH]; intros [|b t]; simpl; try lra. specialize (IH t). pose proof (Rle_0_sqr (a - b)). unfold square, Rsqr in *. lra. }
  assert (Z : forall o t, length o = length t -> (fold_right Rplus 0 (map (fun ab => square (fst ab - snd ab)) (combine o t)) = 0 <-> o = t)).
  { clear L N o t. induction o as [|a o IH]; intros [|b t] L; simpl in *; try discriminate; [tauto |].
    pose proof (P o t) as Q. pose proof (Rle_0_sqr (a - b)) as S. unfold Rsqr in S. split.
    - intros H. unfold square in H at 1. assert (A : (a - b) * (a - b) = 0) by lra. apply Rmult_integral in A.
      f_equal; [lra | apply IH; [lia | lra]].
    - intros [= <- <-]. rewrite (proj2 (IH o eq_refl)) by reflexivity. unfold square; lra. }
  unfold mse_columns, mean. rewrite map_length, combine_length, <- L, Nat.min_id.
  assert (Hn : INR (length o) <> 0) by (apply not_0_INR; destruct o; [contradiction | simpl; lia]).
  rewrite <- (Z o t L). split; intros H.
  - apply (Rmult_eq_reg_r (/ INR (length o))); [| apply Rinv_neq_0_compat; exact Hn]. unfold Rdiv in H. rewrite H. lra.
  - rewrite H. unfold Rdiv. lra.
Qed.

(** Finding: with outputs of shape (n, 1), as a QNN gives, and targets of shape (n,), the loss of perfect predictions is
    not 0: every output is compared with every target. *)
Theorem C79_broadcast_refuted : mse_column_row [0; 1] [0; 1] = 1 / 2.
Proof. unfold mse_column_row, mean, square; simpl. field. Qed.

Print Assumptions C79_gradients.
Print Assumptions C79_told.
Print Assumptions C79_succeeds.
Print Assumptions C79_metrics.
Print Assumptions C79_epoch.
Print Assumptions C79_missing.
Print Assumptions C79_samples.
Print Assumptions C79_mse.
