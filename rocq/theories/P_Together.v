(** C85: processes that train together. *)
From Coq Require Import String Reals List Arith Bool Lia Lra.
From Coq Require Import List.
From Verif Require Import M_Together.
Import ListNotations.
Open Scope R_scope.

(** * Specification *)
(** The mean over the processes. *)
Definition mean {P} (ps : list P) (f : P -> R) : R := fold_right Rplus 0 (map f ps) / INR (length ps).
(** A dictionary of which every process has its own values. *)
Definition of {P} (p : P) (d : list (string * (P -> R))) : list (string * value) := map (fun kf => (fst kf, (snd kf p, false))) d.
(** What the processes have to report for a batch with the losses [l] and the metrics [d]. *)
Record reports {P} (ps : list P) (l : P -> R) (d : list (string * (P -> R))) (b : batch) : Prop := {
  rep_loss : fst b = (mean ps l, false);
  rep_train_loss : dict_get "train_loss" (snd b) = Some (mean ps l, false);
  rep_metric : forall key f, In (key, f) d -> key <> "loss"%string -> dict_get ("train_" ++ key) (snd b) = Some (mean ps f, false);
  rep_only : forall key, In key (map fst (snd b)) -> key = "train_loss"%string \/ exists k, In k (map fst d) /\ key = ("train_" ++ k)%string
}.
(** The epoch in which the training ends for all: [asks n] = somebody asks for a stop in epoch [n]. *)
Definition ends_after (asks : nat -> Prop) (total k : nat) : Prop :=
  (k <= total)%nat /\ (forall n, (S n < k)%nat -> ~ asks n) /\ ((k < total)%nat -> exists n, k = S n /\ asks n).

(** * Facts about runs *)
Lemma runs_nil : forall A (l : list A), runs [] l -> l = [].
Proof.
  intros A l H. remember (@nil (prog A)) as ps eqn:E. induction H as [l|o vs ks l Hl H IH].
  - destruct l; [reflexivity|discriminate].
  - apply IH. destruct vs, ks; cbn in *; try discriminate; reflexivity.
Qed.
Lemma map_done_inj : forall A (l m : list A), map Done l = map Done m -> l = m.
Proof.
  intros A l. induction l as [|a l IH]; intros [|b m] H; cbn in H; try discriminate; [reflexivity|].
  injection H as E F. rewrite E, (IH m F). reflexivity.
Qed.
Lemma combine_reduce_inj : forall A o o' (vs ws : list R) (ks js : list (R -> prog A)),
  length vs = length ks -> length ws = length js ->
  map (fun vk => Reduce o (fst vk) (snd vk)) (combine vs ks) = map (fun vk => Reduce o' (fst vk) (snd vk)) (combine ws js) ->
  vs = ws /\ ks = js.
Proof.
  intros A o o' vs. induction vs as [|v vs IH]; intros ws ks js H1 H2 H; destruct ks as [|k ks]; try discriminate;
    destruct ws as [|w ws], js as [|j js]; try discriminate; [split; reflexivity|].
  cbn in H. injection H as E1 E2 E3 E4. cbn in H1, H2.
  destruct (IH ws ks js) as [F G]; [lia|lia|exact E4|]. subst. split; reflexivity.
Qed.
(** What the processes end with is determined. *)
Theorem C85_deterministic : forall A (ps : list (prog A)) l m, runs ps l -> runs ps m -> l = m.
Proof.
  intros A ps l m H. revert m. induction H as [l|o vs ks l Hl H IH]; intros m H'.
  - inversion H' as [l' E|o' vs' ks' l' Hl' H'' E].
    + subst l'. symmetry. apply map_done_inj. exact E.
    + destruct vs' as [|v vs'], ks' as [|k ks']; try discriminate; cbn in E.
      * destruct l; [|discriminate]. cbn in H''. apply runs_nil in H''. symmetry. exact H''.
      * destruct l; discriminate.
  - inversion H' as [l' E|o' vs' ks' l' Hl' H'' E].
    + subst l'. destruct vs as [|v vs], ks as [|k ks]; try discriminate; cbn in E.
      * destruct m; [|discriminate]. cbn in H. apply runs_nil in H. exact H.
      * destruct m; discriminate.
    + destruct vs as [|v vs].
      * destruct ks; [|discriminate]. cbn in E. destruct vs', ks'; try discriminate. cbn in H''. apply IH. cbn. exact H''.
      * destruct ks as [|k ks]; [discriminate|]. destruct vs' as [|v' vs'], ks' as [|k' ks']; try discriminate.
        assert (Eo : o' = o) by (cbn in E; injection E; auto). subst o'.
        destruct (combine_reduce_inj _ _ _ _ _ _ _ Hl' Hl E) as [F G]. rewrite F, G in H''. apply IH. exact H''.
Qed.

Lemma runs_step : forall A P (ps : list P) o (v : P -> R) (k : P -> R -> prog A) l,
  runs (map (fun p => k p (combine_values o (map v ps))) ps) l -> runs (map (fun p => Reduce o (v p) (k p)) ps) l.
Proof.
  intros A P ps o v k l H.
  replace (map (fun p => Reduce o (v p) (k p)) ps) with (map (fun vk : R * (R -> prog A) => Reduce o (fst vk) (snd vk)) (combine (map v ps) (map k ps))).
  - apply runs_reduce; [rewrite !map_length; reflexivity|]. rewrite map_map. exact H.
  - clear H. generalize ps. induction ps0 as [|p r IH]; cbn; [reflexivity|]. rewrite IH. reflexivity.
Qed.

Lemma runs_mean : forall A P (ps : list P) (d : list (string * (P -> R))) (k : P -> list (string * value) -> prog A) l,
  runs (map (fun p => k p (map (fun kf => (fst kf, (mean ps (snd kf), false))) d)) ps) l ->
  runs (map (fun p => all_reduce_dict (Some (length ps)) HMean (of p d) (k p)) ps) l.
Proof.
  intros A P ps d. induction d as [|[key f] d IH]; intros k l H; [exact H|].
  unfold of. cbn [map fst snd all_reduce_dict].
  apply (runs_step A P ps Sum (fun p => f p)
    (fun p x => all_reduce_dict (Some (length ps)) HMean (of p d) (fun rest => k p ((key, (x / INR (length ps), false)) :: rest)))).
  apply (IH (fun p rest => k p ((key, (combine_values Sum (map (fun p => f p) ps) / INR (length ps), false)) :: rest))).
  exact H.
Qed.

Lemma max_flags : forall P (flag : P -> bool) p r,
  (0 < combine_values Max (map (fun p => if flag p then 1 else 0) (p :: r)) <-> existsb flag (p :: r) = true)
  /\ 0 <= combine_values Max (map (fun p => if flag p then 1 else 0) (p :: r)).
Proof.
  intros P flag p r. cbn [map combine_values existsb].
  induction r as [|q r [IH1 IH2]]; cbn [map fold_right existsb].
  - destruct (flag p); cbn; (split; [split|]); intros; try lra; try discriminate; reflexivity.
  - split.
    + split; intros H.
      * destruct (flag q) eqn:Eq; [rewrite !orb_true_r; reflexivity|].
        cbn. apply IH1. rewrite Rmax_right in H by exact IH2. exact H.
      * apply orb_true_iff in H. destruct H as [H|H].
        -- eapply Rlt_le_trans; [apply IH1; rewrite H; reflexivity|apply Rmax_r].
        -- apply orb_true_iff in H. destruct H as [H|H].
           ++ rewrite H. eapply Rlt_le_trans; [|apply Rmax_l]. lra.
           ++ eapply Rlt_le_trans; [apply IH1; rewrite H, orb_true_r; reflexivity|apply Rmax_r].
    + eapply Rle_trans; [exact IH2|apply Rmax_r].
Qed.
Lemma runs_stop : forall A P (ps : list P) (flag : P -> bool) (k : P -> bool -> prog A) l,
  runs (map (fun p => k p (existsb flag ps)) ps) l ->
  runs (map (fun p => stop_training (Some (length ps)) (flag p) (k p)) ps) l.
Proof.
  intros A P ps flag k l H. unfold stop_training. cbn [all_reduce_dict].
  apply (runs_step A P ps Max (fun p => if flag p then 1 else 0) (fun p x => k p (if Rlt_dec 0 x then true else false))).
  destruct ps as [|p r]; [exact H|].
  destruct (max_flags P flag p r) as [[M1 M2] _].
  destruct (Rlt_dec 0 (combine_values Max (map (fun p0 => if flag p0 then 1 else 0) (p :: r)))) as [G|G].
  - rewrite (M1 G) in H. exact H.
  - destruct (existsb flag (p :: r)) eqn:E; [exfalso; apply G; apply M2; reflexivity|exact H].
Qed.

(** * Means *)
(** Every process gets the mean of the values of all processes for each name. *)
Theorem C85_mean : forall P (ps : list P) (d : list (string * (P -> R))) rs,
  runs (map (fun p => all_reduce_dict (Some (length ps)) HMean (of p d) Done) ps) rs
  <-> rs = map (fun _ => map (fun kf => (fst kf, (mean ps (snd kf), false))) d) ps.
Proof.
  intros P ps d rs.
  assert (H : runs (map (fun p => all_reduce_dict (Some (length ps)) HMean (of p d) Done) ps)
                (map (fun _ => map (fun kf => (fst kf, (mean ps (snd kf), false))) d) ps)).
  { apply (runs_mean _ P ps d (fun _ x => Done x)). rewrite <- (map_map (fun _ => map (fun kf => (fst kf, (mean ps (snd kf), false))) d) Done). apply runs_done. }
  split; intros G; [|subst; exact H]. eapply C85_deterministic; [exact G|exact H].
Qed.
Example C85_mean_witness :
  mean [1%nat; 2%nat; 6%nat] INR = 3.
Proof. unfold mean. cbn. lra. Qed.

(** * One batch *)
Fixpoint putg {P} (key : string) (f : P -> R) (d : list (string * (P -> R))) : list (string * (P -> R)) :=
  match d with [] => [(key, f)] | (k', f') :: r => if String.eqb k' key then (key, f) :: r else (k', f') :: putg key f r end.
Definition modg {P} (l : P -> R) (d : list (string * (P -> R))) := putg "train_loss" l (map (fun kf => (("train_" ++ fst kf)%string, snd kf)) d).
Lemma put_of : forall P (p : P) key f d, put key (f p, false) (of p d) = of p (putg key f d).
Proof.
  intros P p key f d. induction d as [|[k' f'] r IH]; cbn; [reflexivity|].
  destruct (String.eqb k' key); cbn; [reflexivity|]. fold (of p r). rewrite IH. reflexivity.
Qed.
Lemma modified_of : forall P (p : P) l d, modified ((l p, false), of p d) = ((l p, false), of p (modg l d)).
Proof.
  intros P p l d. unfold modified, modg. cbn [fst snd]. f_equal. rewrite <- put_of. f_equal.
  unfold of. rewrite !map_map. reflexivity.
Qed.
Lemma modg_keys : forall P (l : P -> R) d key, In key (map fst (modg l d)) ->
  key = "train_loss"%string \/ exists k, In k (map fst d) /\ key = ("train_" ++ k)%string.
Proof.
  intros P l d key. unfold modg. induction d as [|[k f] d IH]; cbn [map fst snd putg].
  - cbn. intros [H|[]]. left. symmetry. exact H.
  - destruct (String.eqb ("train_" ++ k) "train_loss") eqn:E.
    + cbn [map fst In]. intros [H|H]; [left; symmetry; exact H|].
      rewrite map_map in H. apply in_map_iff in H. destruct H as [[k' f'] [H1 H2]]. cbn in H1. right. exists k'.
      split; [right; apply in_map_iff; exists (k', f'); split; [reflexivity|exact H2]|symmetry; exact H1].
    + cbn [map fst In]. intros [H|H]; [right; exists k; split; [left; reflexivity|symmetry; exact H]|].
      destruct (IH H) as [G|[k' [G1 G2]]]; [left; exact G|right; exists k'; split; [right; exact G1|exact G2]].
Qed.
Lemma no_loss : forall P (g : P -> R) d key, In key (map fst (modg g d)) -> String.eqb key "loss" = false.
Proof.
  intros P g d key H. destruct (modg_keys P g d key H) as [E|[k [_ E]]]; subst; reflexivity.
Qed.
Lemma dict_get_none : forall (d : list (string * value)) key, (forall k, In k (map fst d) -> String.eqb k key = false) -> dict_get key d = None.
Proof.
  intros d key. induction d as [|[k v] d IH]; intros H; cbn; [reflexivity|].
  rewrite (H k (or_introl eq_refl)). apply IH. intros k' I. apply H. right. exact I.
Qed.
Lemma filter_id : forall (d : list (string * value)), (forall k, In k (map fst d) -> String.eqb k "loss" = false) ->
  filter (fun kv => negb (String.eqb (fst kv) "loss")) d = d.
Proof.
  intros d. induction d as [|[k v] d IH]; intros H; cbn [filter fst]; [reflexivity|].
  rewrite (H k (or_introl eq_refl)). cbn [negb]. rewrite IH; [reflexivity|]. intros k' I. apply H. right. exact I.
Qed.
Definition means {P} (ps : list P) (d : list (string * (P -> R))) : list (string * value) := map (fun kf => (fst kf, (mean ps (snd kf), false))) d.
Definition report {P} (ps : list P) (l : P -> R) (d : list (string * (P -> R))) : batch := ((mean ps l, false), means ps (modg l d)).
Lemma runs_aggregate : forall A P (ps : list P) l d (k : P -> batch -> prog A) rs,
  runs (map (fun p => k p (report ps l d)) ps) rs ->
  runs (map (fun p => aggregate (Some (length ps)) true (modified ((l p, false), of p d)) (k p)) ps) rs.
Proof.
  intros A P ps l d k rs H.
  assert (K : forall p, In p ps -> aggregate (Some (length ps)) true (modified ((l p, false), of p d)) (k p)
    = all_reduce_dict (Some (length ps)) HMean (of p (("loss"%string, l) :: modg l d)) (fun x =>
        match dict_get "loss" x with Some v => k p (v, filter (fun kv => negb (String.eqb (fst kv) "loss")) x) | None => Raise end)).
  { intros p _. rewrite modified_of. unfold aggregate. cbn [fst snd]. unfold with_loss.
    rewrite dict_get_none; [reflexivity|]. intros key I. unfold of in I. rewrite map_map in I. cbn in I. exact (no_loss P l d key I). }
  rewrite (map_ext_in _ _ _ K).
  apply (runs_mean A P ps (("loss"%string, l) :: modg l d) (fun p x =>
    match dict_get "loss" x with Some v => k p (v, filter (fun kv => negb (String.eqb (fst kv) "loss")) x) | None => Raise end)).
  cbn [map fst snd dict_get String.eqb Ascii.eqb Bool.eqb filter negb].
  fold (means ps (modg l d)). rewrite filter_id; [exact H|].
  intros key I. unfold means in I. rewrite map_map in I. cbn in I. exact (no_loss P l d key I).
Qed.
Lemma append_cancel : forall a b c, (a ++ b)%string = (a ++ c)%string -> b = c.
Proof. intros a. induction a as [|x a IH]; cbn; intros b c H; [exact H|]. injection H as H. apply IH. exact H. Qed.
Lemma report_ok : forall P (ps : list P) l d, NoDup (map fst d) -> reports ps l d (report ps l d).
Proof.
  intros P ps l d N. split.
  - reflexivity.
  - unfold report, modg. cbn [snd]. clear N. induction d as [|[k f] d IH]; [reflexivity|].
    cbn [map fst snd putg]. destruct (String.eqb ("train_" ++ k) "train_loss") eqn:E.
    + reflexivity.
    + unfold means. cbn [map fst snd dict_get]. rewrite E. exact IH.
  - unfold report, modg. cbn [snd]. induction d as [|[k f] d IH]; intros key g I Hk; [destruct I|].
    cbn [map fst] in N. apply NoDup_cons_iff in N. destruct N as [N1 N2].
    cbn [map fst snd putg].
    destruct (String.eqb ("train_" ++ k) "train_loss") eqn:E.
    + apply String.eqb_eq in E. change "train_loss"%string with ("train_" ++ "loss")%string in E. apply append_cancel in E. subst k.
      destruct I as [I|I]; [injection I as I1 I2; congruence|].
      unfold means. cbn [map fst snd dict_get].
      destruct (String.eqb "train_loss" ("train_" ++ key)) eqn:E.
      * apply String.eqb_eq in E. change "train_loss"%string with ("train_" ++ "loss")%string in E. apply append_cancel in E. congruence.
      * clear IH N1 E. induction d as [|[k' f'] d IH]; [destruct I|]. cbn [map fst] in N2. apply NoDup_cons_iff in N2. destruct N2 as [N1 N2].
        cbn [map fst snd dict_get]. destruct (String.eqb ("train_" ++ k') ("train_" ++ key)) eqn:E.
        -- apply String.eqb_eq in E. apply append_cancel in E. subst k'. destruct I as [I|I]; [injection I as I; subst; reflexivity|].
           exfalso. apply N1. apply in_map_iff. exists (key, g). split; [reflexivity|exact I].
        -- destruct I as [I|I]; [injection I as I1 I2; subst; rewrite String.eqb_refl in E; discriminate|]. exact (IH N2 I).
    + unfold means. cbn [map fst snd dict_get]. destruct (String.eqb ("train_" ++ k) ("train_" ++ key)) eqn:F.
      * apply String.eqb_eq in F. apply append_cancel in F. subst k. destruct I as [I|I]; [injection I as I; subst; reflexivity|].
        exfalso. apply N1. apply in_map_iff. exists (key, g). split; [reflexivity|exact I].
      * destruct I as [I|I]; [injection I as I1 I2; subst; rewrite String.eqb_refl in F; discriminate|]. exact (IH N2 key g I Hk).
  - intros key H. unfold report in H. cbn [snd] in H. unfold means in H. rewrite map_map in H. cbn in H. apply (modg_keys P l d key). exact H.
Qed.

(** * The training *)
(** What the processes meet in an epoch in which they have the same number of batches and the same metrics. *)
Definition lockstep {P} : Type := list ((P -> R) * list (string * (P -> R))).
Definition epoch_for {P} (asks : nat -> P -> bool) (n : nat) (bs : @lockstep P) (p : P) : epoch_of :=
  {| ep_batches := map (fun b => ((fst b p, false), of p (snd b))) bs; ep_interrupt := None; ep_stop := asks n p |}.
Fixpoint epochs_from {P} (asks : nat -> P -> bool) (n : nat) (es : list (@lockstep P)) (p : P) : list epoch_of :=
  match es with [] => [] | bs :: r => epoch_for asks n bs p :: epochs_from asks (S n) r p end.

Lemma runs_training : forall A P (ps : list P) (bs : @lockstep P) (acc : list batch) (k : P -> list batch -> prog A) rs,
  runs (map (fun p => k p (acc ++ map (fun b => report ps (fst b) (snd b)) bs)) ps) rs ->
  runs (map (fun p => run_training (Some (length ps)) true (map (fun b => ((fst b p, false), of p (snd b))) bs) acc (k p)) ps) rs.
Proof.
  intros A P ps bs. induction bs as [|[l d] bs IH]; intros acc k rs H; cbn [map run_training fst snd].
  - rewrite app_nil_r in H. exact H.
  - apply (runs_aggregate A P ps l d (fun p x => run_training (Some (length ps)) true (map (fun b => ((fst b p, false), of p (snd b))) bs) (acc ++ [x]) (k p))).
    apply (IH (acc ++ [report ps l d])). rewrite <- app_assoc. exact H.
Qed.
Lemma existsb_const : forall P (ps : list P) b, ps <> [] -> existsb (fun _ => b) ps = b.
Proof. intros P ps b H. destruct ps as [|p r]; [congruence|]. cbn. destruct b; [reflexivity|]. clear H. induction r; [reflexivity|exact IHr]. Qed.
Lemma train_lockstep : forall P (ps : list P), ps <> [] -> forall es asks n (flag : P -> bool) acc,
  exists k, (existsb flag ps = true /\ k = 0%nat \/ existsb flag ps = false /\ ends_after (fun i => exists p, In p ps /\ asks (n + i)%nat p = true) (length es) k)
    /\ runs (map (fun p => train_epochs (Some (length ps)) true (epochs_from asks n es p) (flag p) acc) ps)
            (map (fun _ => acc ++ map (fun bs => map (fun b => report ps (fst b) (snd b)) bs) (firstn k es)) ps).
Proof.
  intros P ps Hps es. induction es as [|bs es IH]; intros asks n flag acc.
  - exists 0%nat. split.
    + destruct (existsb flag ps); [left; auto|right]. split; [reflexivity|]. split; [auto|]. split; [intros i Hi; lia|cbn; intros Hi; lia].
    + cbn. rewrite app_nil_r. rewrite <- (map_map (fun _ => acc) Done). apply runs_done.
  - destruct (existsb flag ps) eqn:E.
    + exists 0%nat. split; [left; auto|]. cbn [epochs_from train_epochs firstn map]. rewrite app_nil_r.
      apply (runs_stop _ P ps flag (fun p stop => if stop then Done acc else _)). rewrite E.
      rewrite <- (map_map (fun _ => acc) Done). apply runs_done.
    + destruct (IH asks (S n) (fun p => flag p || asks n p) (acc ++ [map (fun b => report ps (fst b) (snd b)) bs])) as [k [Hk Hr]].
      exists (S k). split.
      * right. split; [reflexivity|]. destruct Hk as [[H1 H2]|[H1 [H2 [H3 H4]]]].
        -- subst k. split; [cbn; lia|]. split; [intros i Hi; lia|]. intros _. exists 0%nat. split; [reflexivity|].
           apply existsb_exists in H1. destruct H1 as [p [I F]]. exists p. split; [exact I|]. rewrite Nat.add_0_r.
           apply orb_true_iff in F. destruct F as [F|F]; [|exact F]. exfalso.
           assert (G : existsb flag ps = true) by (apply existsb_exists; exists p; auto). congruence.
        -- split; [cbn; lia|]. split.
           ++ intros [|i] Hi.
              ** rewrite Nat.add_0_r. intros [p [I F]]. assert (G : existsb (fun p => flag p || asks n p) ps = true).
                 { apply existsb_exists. exists p. split; [exact I|]. rewrite F. apply orb_true_r. } congruence.
              ** replace (n + S i)%nat with (S n + i)%nat by lia. apply H3. lia.
           ++ cbn [length]. intros Hl. destruct H4 as [i [H5 H6]]; [lia|]. exists (S i). split; [lia|]. replace (n + S i)%nat with (S n + i)%nat by lia. exact H6.
      * cbn [epochs_from train_epochs firstn map].
        apply (runs_stop _ P ps flag (fun p stop => if stop then Done acc else _)). rewrite E. cbn [epoch_for ep_interrupt ep_batches ep_stop].
        apply (runs_training _ P ps bs [] (fun p xs => train_epochs (Some (length ps)) true (epochs_from asks (S n) es p) (flag p || asks n p) (acc ++ [xs]))).
        cbn [app]. rewrite <- app_assoc in Hr. exact Hr.
Qed.

(** With aggregated metrics: if the processes have the same number of batches with the same metrics in every epoch and none
    is interrupted, all of them end, after the same epochs, the last one being that in which some process first asks for a
    stop; and all report the same, the mean over the processes of every loss and every metric. *)
Theorem C85_together : forall P (ps : list P) (es : list (@lockstep P)) (asks : nat -> P -> bool),
  ps <> [] -> (forall bs b, In bs es -> In b bs -> NoDup (map fst (snd b))) ->
  exists k r, ends_after (fun n => exists p, In p ps /\ asks n p = true) (length es) k
    /\ (forall rs, runs (map (fun p => train_epochs (Some (length ps)) true (epochs_from asks 0 es p) false []) ps) rs <-> rs = map (fun _ => r) ps)
    /\ Forall2 (fun bs xs => Forall2 (fun b x => reports ps (fst b) (snd b) x) bs xs) (firstn k es) r.
Proof.
  intros P ps es asks Hps N. destruct (train_lockstep P ps Hps es asks 0 (fun _ => false) []) as [k [Hk Hr]].
  rewrite existsb_const in Hk by exact Hps. destruct Hk as [[H _]|[_ Hk]]; [discriminate|].
  exists k, (map (fun bs => map (fun b => report ps (fst b) (snd b)) bs) (firstn k es)). split; [exact Hk|]. split.
  - intros rs. split; intros G; [eapply C85_deterministic; [exact G|exact Hr]|subst; exact Hr].
  - assert (N' : forall bs b, In bs (firstn k es) -> In b bs -> NoDup (map fst (snd b))).
    { intros bs b I. apply N. rewrite <- (firstn_skipn k es). apply in_or_app. left. exact I. }
    clear -N'. induction (firstn k es) as [|bs r IH]; cbn [map]; constructor.
    + assert (N : forall b, In b bs -> NoDup (map fst (snd b))) by (intros b I; apply (N' bs b); [left; reflexivity|exact I]).
      clear -N. induction bs as [|b bs IH]; cbn [map]; constructor; [apply report_ok; apply N; left; reflexivity|apply IH; intros b' I; apply N; right; exact I].
    + apply IH. intros bs' b I J. apply (N' bs' b); [right; exact I|exact J].
Qed.
(** Two processes, three epochs; the second process asks for a stop in the second epoch. *)
Example C85_together_witness :
  let es := [[((fun p : bool => if p then 1 else 3), [("acc"%string, (fun p : bool => if p then 0 else 1))])]; []; []] in
  (forall bs b, In bs es -> In b bs -> NoDup (map fst (snd b)))
  /\ ends_after (fun n => exists p, In p [true; false] /\ (Nat.eqb n 1 && negb p)%bool = true) 3 2
  /\ mean [true; false] (fun p : bool => if p then 1 else 3) = 2.
Proof.
  cbv zeta. split; [|split].
  - intros bs b [H|[H|[H|[]]]]; subst bs; intros I; [|destruct I|destruct I]. destruct I as [I|[]]. subst b. cbn. repeat constructor. intros [].
  - split; [lia|]. split.
    + intros [|n] Hn; [|lia]. intros [p [_ H]]. discriminate.
    + intros _. exists 1%nat. split; [reflexivity|]. exists false. split; [right; left; reflexivity|reflexivity].
  - unfold mean. cbn. lra.
Qed.

(** Without aggregated metrics: whatever the batches are, and whether or not processes are interrupted, all processes end,
    after the same epoch, namely the first one in which one of them asks for a stop or is interrupted; each reports its own
    values for the epochs in which it was not interrupted. *)
Definition wants (e : epoch_of) : bool := match ep_interrupt e with Some _ => true | None => ep_stop e end.
Definition whole (e : epoch_of) : bool := match ep_interrupt e with Some _ => false | None => true end.
Definition own (es : list epoch_of) : list (list batch) := map (fun e => map modified (ep_batches e)) (filter whole es).
Lemma own_training : forall A ws (bs acc : list batch) (k : list batch -> prog A), run_training ws false bs acc k = k (acc ++ map modified bs).
Proof.
  intros A ws bs. induction bs as [|b bs IH]; intros acc k; cbn [run_training map]; [rewrite app_nil_r; reflexivity|].
  unfold aggregate. rewrite IH, <- app_assoc. reflexivity.
Qed.
Lemma own_step : forall ws e r flag acc,
  train_epochs ws false (e :: r) flag acc
  = stop_training ws flag (fun stop => if stop then Done acc else train_epochs ws false r (flag || wants e) (acc ++ own [e])).
Proof.
  intros ws e r flag acc. cbn [train_epochs].
  replace (fun stop : bool => if stop then Done acc else match ep_interrupt e with
     | Some n => run_training ws false (firstn n (ep_batches e)) [] (fun _ => train_epochs ws false r true acc)
     | None => run_training ws false (ep_batches e) [] (fun xs => train_epochs ws false r (flag || ep_stop e) (acc ++ [xs])) end)
  with (fun stop : bool => if stop then Done acc else train_epochs ws false r
     (match ep_interrupt e with Some _ => true | None => flag || ep_stop e end) (acc ++ own [e])).
  - unfold wants. destruct (ep_interrupt e), flag; reflexivity.
  - unfold own, whole. cbn [filter]. destruct (ep_interrupt e); rewrite !own_training; cbn [map app]; [rewrite app_nil_r|]; reflexivity.
Qed.
Definition wanted {P} (ps : list P) (es : P -> list epoch_of) (n : nat) : Prop :=
  exists p e, In p ps /\ nth_error (es p) n = Some e /\ wants e = true.
Lemma train_own : forall P (ps : list P), ps <> [] -> forall m (es : P -> list epoch_of) (flag : P -> bool) (acc : P -> list (list batch)),
  (forall p, In p ps -> length (es p) = m) ->
  exists k, (existsb flag ps = true /\ k = 0%nat \/ existsb flag ps = false /\ ends_after (wanted ps es) m k)
    /\ runs (map (fun p => train_epochs (Some (length ps)) false (es p) (flag p) (acc p)) ps) (map (fun p => acc p ++ own (firstn k (es p))) ps).
Proof.
  intros P ps Hps m. induction m as [|m IH]; intros es flag acc Hl.
  - exists 0%nat. split.
    + destruct (existsb flag ps); [left; auto|right]. split; [reflexivity|]. split; [auto|]. split; [intros i Hi; lia|intros Hi; lia].
    + rewrite (map_ext_in _ (fun p => Done (acc p))).
      * rewrite (map_ext (fun p => acc p ++ own (firstn 0 (es p))) acc) by (intros p; cbn; apply app_nil_r).
        rewrite <- (map_map acc Done). apply runs_done.
      * intros p I. specialize (Hl p I). destruct (es p); [reflexivity|discriminate].
  - set (dft := {| ep_batches := []; ep_interrupt := None; ep_stop := false |}).
    assert (Hs : forall p, In p ps -> es p = hd dft (es p) :: tl (es p)).
    { intros p I. specialize (Hl p I). destruct (es p); [discriminate|reflexivity]. }
    assert (Hm : map (fun p => train_epochs (Some (length ps)) false (es p) (flag p) (acc p)) ps
      = map (fun p => stop_training (Some (length ps)) (flag p) (fun stop => if stop then Done (acc p)
          else train_epochs (Some (length ps)) false (tl (es p)) (flag p || wants (hd dft (es p))) (acc p ++ own [hd dft (es p)]))) ps).
    { apply map_ext_in. intros p I. rewrite (Hs p I) at 1. apply own_step. }
    rewrite Hm. clear Hm. destruct (existsb flag ps) eqn:E.
    + exists 0%nat. split; [left; auto|].
      apply (runs_stop _ P ps flag (fun p stop => if stop then Done (acc p) else _)). rewrite E.
      rewrite (map_ext (fun p => acc p ++ own (firstn 0 (es p))) acc) by (intros p; cbn; apply app_nil_r).
      rewrite <- (map_map acc Done). apply runs_done.
    + destruct (IH (fun p => tl (es p)) (fun p => flag p || wants (hd dft (es p))) (fun p => acc p ++ own [hd dft (es p)])) as [k [Hk Hr]].
      { intros p I. specialize (Hl p I). destruct (es p); cbn in *; lia. }
      exists (S k). split.
      * right. split; [reflexivity|]. destruct Hk as [[H1 H2]|[H1 [H2 [H3 H4]]]].
        -- subst k. split; [lia|]. split; [intros i Hi; lia|]. intros _. exists 0%nat. split; [reflexivity|].
           apply existsb_exists in H1. destruct H1 as [p [I F]]. exists p, (hd dft (es p)). split; [exact I|].
           split; [rewrite (Hs p I); reflexivity|].
           apply orb_true_iff in F. destruct F as [F|F]; [|exact F]. exfalso.
           assert (G : existsb flag ps = true) by (apply existsb_exists; exists p; auto). congruence.
        -- split; [lia|]. split.
           ++ intros [|i] Hi.
              ** intros [p [e [I [F1 F2]]]]. assert (G : existsb (fun p => flag p || wants (hd dft (es p))) ps = true).
                 { apply existsb_exists. exists p. split; [exact I|]. rewrite (Hs p I) in F1. cbn in F1. injection F1 as F1. rewrite F1, F2. apply orb_true_r. }
                 congruence.
              ** intros [p [e [I [F1 F2]]]]. apply (H3 i); [lia|]. exists p, e. split; [exact I|]. split; [|exact F2].
                 rewrite (Hs p I) in F1. cbn in F1. exact F1.
           ++ intros Hn. destruct H4 as [i [H5 [p [e [I [F1 F2]]]]]]; [lia|]. exists (S i). split; [lia|]. exists p, e. split; [exact I|].
              split; [|exact F2]. rewrite (Hs p I). exact F1.
      * apply (runs_stop _ P ps flag (fun p stop => if stop then Done (acc p)
          else train_epochs (Some (length ps)) false (tl (es p)) (flag p || wants (hd dft (es p))) (acc p ++ own [hd dft (es p)]))). rewrite E.
        rewrite (map_ext_in (fun p => acc p ++ own (firstn (S k) (es p))) (fun p => (acc p ++ own [hd dft (es p)]) ++ own (firstn k (tl (es p))))); [exact Hr|].
        intros p I. rewrite (Hs p I) at 1. cbn [firstn]. rewrite <- app_assoc. f_equal. unfold own. cbn [filter].
        destruct (whole (hd dft (es p))); reflexivity.
Qed.
Theorem C85_stop : forall P (ps : list P) m (es : P -> list epoch_of),
  ps <> [] -> (forall p, In p ps -> length (es p) = m) ->
  exists k, ends_after (wanted ps es) m k
    /\ forall rs, runs (map (fun p => train_epochs (Some (length ps)) false (es p) false []) ps) rs <-> rs = map (fun p => own (firstn k (es p))) ps.
Proof.
  intros P ps m es Hps Hl. destruct (train_own P ps Hps m es (fun _ => false) (fun _ => []) Hl) as [k [Hk Hr]].
  rewrite existsb_const in Hk by exact Hps. destruct Hk as [[H _]|[_ Hk]]; [discriminate|].
  exists k. split; [exact Hk|]. intros rs. split; intros G; [eapply C85_deterministic; [exact G|exact Hr]|subst; exact Hr].
Qed.
(** Two processes with different numbers of batches; one is interrupted in the first of its two epochs. *)
Example C85_stop_witness :
  let e n i := {| ep_batches := repeat ((1, false), []) n; ep_interrupt := i; ep_stop := false |} in
  let es (p : bool) := if p then [e 2%nat None; e 1%nat None] else [e 3%nat (Some 1%nat); e 1%nat None] in
  (forall p, In p [true; false] -> length (es p) = 2%nat) /\ ends_after (wanted [true; false] es) 2 1
  /\ map (fun p => length (own (firstn 1 (es p)))) [true; false] = [1%nat; 0%nat].
Proof.
  cbv zeta. split; [intros [|] _; reflexivity|]. split; [|reflexivity].
  split; [lia|]. split; [intros n Hn; lia|]. intros _. exists 0%nat. split; [reflexivity|].
  exists false, {| ep_batches := repeat ((1, false), []) 3; ep_interrupt := Some 1%nat; ep_stop := false |}.
  split; [right; left; reflexivity|]. split; reflexivity.
Qed.

(** A single process, without torch.distributed: nothing is changed by the aggregation, and the training ends after the
    first epoch in which a stop is asked for. *)
Fixpoint until (es : list epoch_of) : list epoch_of := match es with [] => [] | e :: r => if wants e then [e] else e :: until r end.
Lemma alone_dict : forall (l : value) (d : list (string * value)), dict_get "loss" d = None ->
  forall A (k : batch -> prog A), aggregate None true (l, d) k = k (l, d).
Proof.
  intros l d H A k. unfold aggregate. cbn [fst snd]. unfold with_loss. rewrite H. cbn.
  rewrite filter_id; [reflexivity|]. intros key I. induction d as [|[k' v] d IH]; [destruct I|].
  cbn in H. destruct (String.eqb k' "loss") eqn:E; [discriminate|]. destruct I as [I|I]; [subst; exact E|exact (IH H I)].
Qed.
Lemma modified_no_loss : forall b, dict_get "loss" (snd (modified b)) = None.
Proof.
  intros [l d]. unfold modified. cbn [fst snd]. induction d as [|[k v] d IH]; cbn [map put]; [reflexivity|].
  cbn [fst snd]. destruct (String.eqb ("train_" ++ k) "train_loss"); cbn [dict_get].
  - replace (String.eqb "train_loss" "loss") with false by reflexivity.
    clear. induction d as [|[k v] d IH]; [reflexivity|]. cbn [map dict_get fst snd]. exact IH.
  - exact IH.
Qed.
Lemma alone_training : forall A arm (bs acc : list batch) (k : list batch -> prog A), run_training None arm bs acc k = k (acc ++ map modified bs).
Proof.
  intros A arm bs. destruct arm; [|intros; apply own_training].
  induction bs as [|b bs IH]; intros acc k; cbn [run_training map]; [rewrite app_nil_r; reflexivity|].
  pose proof (modified_no_loss b) as H. destruct (modified b) as [l d]. rewrite (alone_dict l d H). rewrite IH, <- app_assoc. reflexivity.
Qed.
Theorem C85_alone : forall arm es rs, runs [train_epochs None arm es false []] rs <-> rs = [own (until es)].
Proof.
  intros arm es rs.
  assert (H : forall es acc, train_epochs None arm es true acc = Done acc).
  { clear. intros es acc. destruct es as [|e r]; [reflexivity|]. cbn. destruct (Rlt_dec 0 1); [reflexivity|lra]. }
  assert (G : forall es acc, train_epochs None arm es false acc = Done (acc ++ own (until es))).
  { clear es rs. intros es. induction es as [|e r IH]; intros acc; [cbn; rewrite app_nil_r; reflexivity|].
    cbn [train_epochs until]. unfold stop_training. cbn [all_reduce_dict]. destruct (Rlt_dec 0 0) as [F|_]; [lra|].
    unfold own, whole, wants. destruct (ep_interrupt e) as [n|] eqn:E; rewrite alone_training; cbn [app].
    - rewrite H. cbn [filter]. rewrite E. cbn [map]. rewrite app_nil_r. reflexivity.
    - cbn [orb]. destruct (ep_stop e).
      + rewrite H. cbn [filter]. rewrite E. reflexivity.
      + rewrite IH. cbn [filter]. rewrite E. cbn [map]. rewrite <- app_assoc. reflexivity. }
  rewrite G. cbn [app]. assert (D : runs [Done (own (until es))] [own (until es)]) by (apply (runs_done [own (until es)])).
  split; intros K; [eapply C85_deterministic; [exact K|exact D]|subst; exact D].
Qed.
Example C85_alone_witness :
  let e s := {| ep_batches := [((5, false), [])]; ep_interrupt := None; ep_stop := s |} in
  own (until [e false; e true; e false]) = [[((5, false), [("train_loss"%string, (5, false))])]; [((5, false), [("train_loss"%string, (5, false))])]].
Proof. reflexivity. Qed.

(** * What goes wrong *)
Lemma pair_inv : forall A o o' v v' (k k' : R -> prog A) l, runs [Reduce o v k; Reduce o' v' k'] l ->
  o = o' /\ runs [k (combine_values o [v; v']); k' (combine_values o [v; v'])] l.
Proof.
  intros A o o' v v' k k' l H. inversion H as [l' E|o2 vs ks l' Hl H' E].
  - destruct l'; discriminate.
  - destruct vs as [|a [|b [|]]], ks as [|x [|y [|]]]; try discriminate. cbn in E. injection E as E1 E2 E3 E4 E5 E6. subst. split; [reflexivity|exact H'].
Qed.
Lemma pair_raise : forall A (p : prog A) l, ~ runs [Raise; p] l.
Proof.
  intros A p l H. inversion H as [l' E|o2 vs ks l' Hl H' E].
  - destruct l' as [|? [|]]; discriminate.
  - destruct vs, ks; discriminate.
Qed.
Lemma pair_done : forall A o v k (a : A) l, ~ runs [Reduce o v k; Done a] l.
Proof.
  intros A o v k a l H. inversion H as [l' E|o2 vs ks l' Hl H' E].
  - destruct l' as [|? [|]]; discriminate.
  - destruct vs as [|? [|]], ks as [|? [|]]; discriminate.
Qed.
(** Reductions are matched by their order, not by their names: if two processes return the same metrics in different orders,
    each "mean" mixes two metrics, silently. *)
Theorem C85_order_refuted :
  exists (d d' : list (string * value)), (forall key, In key (map fst d) <-> In key (map fst d')) /\
    runs (map (fun x => all_reduce_dict (Some 2%nat) HMean x Done) [d; d'])
         [[("a"%string, (1, false)); ("b"%string, (5, false))]; [("b"%string, (1, false)); ("a"%string, (5, false))]]
    /\ dict_get "a" d = Some (2, false) /\ dict_get "a" d' = Some (4, false).
Proof.
  exists [("a"%string, (2, false)); ("b"%string, (6, false))], [("b"%string, (0, false)); ("a"%string, (4, false))].
  split; [intros key; cbn; tauto|]. split; [|split; reflexivity].
  cbn [map all_reduce_dict].
  apply (runs_reduce Sum [2; 0] [_; _]); [reflexivity|]. cbn [map].
  apply (runs_reduce Sum [6; 4] [_; _]); [reflexivity|]. cbn [map combine_values fold_right].
  replace ((2 + (0 + 0)) / INR 2) with 1 by (cbn; lra). replace ((6 + (4 + 0)) / INR 2) with 5 by (cbn; lra).
  apply (runs_done [_; _]).
Qed.
(** A metric that is an integer tensor (say, a count): the division by the number of processes raises. *)
Theorem C85_integer_refuted : forall v v' rest rest' rs,
  ~ runs (map (fun x => all_reduce_dict (Some 2%nat) HMean x Done) [("count"%string, (v, true)) :: rest; ("count"%string, (v', true)) :: rest']) rs.
Proof. intros v v' rest rest' rs H. cbn [map all_reduce_dict] in H. apply pair_inv in H. destruct H as [_ H]. exact (pair_raise _ _ _ H). Qed.
(** With aggregated metrics, a process that is interrupted goes on to the reduction of the stop indicator while the others
    are in one of a metric: the processes do not end together. *)
Theorem C85_interrupt_refuted : exists (es es' : list epoch_of), length es = length es' /\
  map ep_batches es = map ep_batches es' /\
  forall rs, ~ runs (map (fun x => train_epochs (Some 2%nat) true x false []) [es; es']) rs.
Proof.
  set (e i := {| ep_batches := [((1, false), [])]; ep_interrupt := i; ep_stop := false |}).
  exists [e None; e None], [e (Some 0%nat); e None]. split; [reflexivity|]. split; [reflexivity|].
  intros rs H. cbn -[Rlt_dec combine_values Rdiv] in H. apply pair_inv in H. destruct H as [_ H].
  destruct (Rlt_dec 0 (combine_values Max [0; 0])) as [F|F].
  - cbn in F. unfold Rmax in F. destruct (Rle_dec 0 0); lra.
  - cbn -[Rlt_dec combine_values Rdiv] in H. apply pair_inv in H. destruct H as [H _]. discriminate.
Qed.
(** The same happens when the processes have different numbers of batches. *)
Theorem C85_batches_refuted : exists (es es' : list epoch_of), length es = length es' /\ forallb whole (es ++ es') = true /\
  forall rs, ~ runs (map (fun x => train_epochs (Some 2%nat) true x false []) [es; es']) rs.
Proof.
  set (e n := {| ep_batches := repeat ((1, false), []) n; ep_interrupt := None; ep_stop := false |}).
  exists [e 1%nat], [e 0%nat]. split; [reflexivity|]. split; [reflexivity|].
  intros rs H. cbn -[Rlt_dec combine_values Rdiv] in H. apply pair_inv in H. destruct H as [_ H].
  destruct (Rlt_dec 0 (combine_values Max [0; 0])) as [F|F].
  - cbn in F. unfold Rmax in F. destruct (Rle_dec 0 0); lra.
  - cbn -[Rlt_dec combine_values Rdiv] in H. exact (pair_done _ _ _ _ _ _ H).
Qed.

(** * Batches *)
Section Batches.
  Variable T : Type.
  Variable cast : dtype -> dtype -> T -> T.
  Variable target : option dtype.
  (** The same data with every tensor cast to the target type, if there is one. *)
  Inductive moved : data T -> data T -> Prop :=
  | moved_missing : moved Missing Missing
  | moved_keep : forall d x, target = None -> moved (Tensor d x) (Tensor d x)
  | moved_cast : forall d t x, target = Some t -> moved (Tensor d x) (Tensor t (cast d t x))
  | moved_list : forall l m, Forall2 moved l m -> moved (ListD l) (ListD m)
  | moved_dict : forall l m, Forall2 (fun a b => fst a = fst b /\ moved (snd a) (snd b)) l m -> moved (DictD l) (DictD m).
  (** Data made of tensors, None, lists and dictionaries. *)
  Inductive plain : data T -> Prop :=
  | plain_missing : plain Missing
  | plain_tensor : forall d x, plain (Tensor d x)
  | plain_list : forall l, Forall plain l -> plain (ListD l)
  | plain_dict : forall l, Forall (fun a => plain (snd a)) l -> plain (DictD l).
  Lemma all_some_forall2 : forall X Y (f : X -> option Y) (Q : X -> Y -> Prop) l, Forall (fun x => exists y, f x = Some y /\ Q x y) l ->
    exists m, all_some (map f l) = Some m /\ Forall2 Q l m.
  Proof.
    intros X Y f Q l H. induction H as [|x l [y [E F]] H [m [IH1 IH2]]]; [exists []; split; [reflexivity|constructor]|].
    exists (y :: m). cbn. rewrite E, IH1. split; [reflexivity|constructor; assumption].
  Qed.
  Lemma data_nested_ind : forall (Q : data T -> Prop), (forall d x, Q (Tensor d x)) -> Q Missing -> Q Other ->
    (forall l, Forall Q l -> Q (ListD l)) -> (forall l, Forall Q l -> Q (TupleD l)) -> (forall l, Forall (fun a => Q (snd a)) l -> Q (DictD l)) -> forall x, Q x.
  Proof.
    intros Q H1 H2 H3 H4 H5 H6. fix F 1. intros [d x| |l|l|l|]; [apply H1|exact H2| | | |exact H3].
    - apply H4. induction l as [|x l IH]; constructor; [apply F|exact IH].
    - apply H6. induction l as [|[k x] l IH]; constructor; [apply F|exact IH].
    - apply H5. induction l as [|x l IH]; constructor; [apply F|exact IH].
  Qed.
  Lemma to_device_moved : forall x, plain x -> exists y, data_to_device T cast target x = Some y /\ moved x y.
  Proof.
    intros x. induction x as [d x| | |l IH|l IH|l IH] using data_nested_ind; intros H.
    - cbn. unfold to_device. destruct target as [t|] eqn:E; eexists; (split; [reflexivity|]); [apply moved_cast; exact E|apply moved_keep; exact E].
    - exists Missing. split; [reflexivity|constructor].
    - inversion H.
    - inversion H as [| |l' Hl|]. subst l'.
      assert (G : Forall (fun x => exists y, data_to_device T cast target x = Some y /\ moved x y) l).
      { rewrite Forall_forall in *. intros x I. exact (IH x I (Hl x I)). }
      destruct (all_some_forall2 _ _ _ _ l G) as [m [E F]]. exists (ListD m). cbn. rewrite E. split; [reflexivity|constructor; exact F].
    - inversion H.
    - inversion H as [| | |l' Hl]. subst l'.
      assert (G : Forall (fun a : string * data T => exists b, option_map (fun y => (fst a, y)) (data_to_device T cast target (snd a)) = Some b
                    /\ (fst a = fst b /\ moved (snd a) (snd b))) l).
      { rewrite Forall_forall in *. intros x I. destruct (IH x I (Hl x I)) as [y [E F]].
        exists (fst x, y). rewrite E. split; [reflexivity|split; [reflexivity|exact F]]. }
      destruct (all_some_forall2 _ _ _ _ l G) as [m [E F]]. exists (DictD m). cbn. rewrite E. split; [reflexivity|constructor; exact F].
  Qed.
  (** A batch of tensors, None, lists and dictionaries, possibly in an outer tuple, reaches the loss function with the same
      structure and every tensor cast; an outer list becomes a tuple. *)
  Theorem C85_batch : forall b,
    (plain b -> (forall l, b <> ListD l) -> exists y, prepare_batch T cast target b = Some y /\ moved b y)
    /\ (forall l, (b = TupleD l \/ b = ListD l) -> Forall plain l -> exists m, prepare_batch T cast target b = Some (TupleD m) /\ Forall2 moved l m).
  Proof.
    intros b. split.
    - intros H N. destruct b as [d x| |l|l|l|].
      + exact (to_device_moved _ H).
      + exists Missing. split; [reflexivity|constructor].
      + exfalso. exact (N l eq_refl).
      + exact (to_device_moved _ H).
      + inversion H.
      + inversion H.
    - intros l Hb H. assert (G : Forall (fun x => exists y, data_to_device T cast target x = Some y /\ moved x y) l).
      { eapply Forall_impl; [|exact H]. intros x Hx. exact (to_device_moved x Hx). }
      destruct (all_some_forall2 _ _ _ _ l G) as [m [E F]]. exists m. destruct Hb as [Hb|Hb]; subst b; cbn; rewrite E; split; auto.
  Qed.
  (** A tuple inside a batch is refused, although DataLoaders of custom datasets may well yield it. *)
  Theorem C85_nested_tuple_refuted : forall l r, prepare_batch T cast target (TupleD (TupleD l :: r)) = None.
  Proof. reflexivity. Qed.
  (** A batch of another type is replaced by None without an error: the loss function is called without data. *)
  Theorem C85_other_refuted : prepare_batch T cast target Other = Some Missing.
  Proof. reflexivity. Qed.
End Batches.
(** Labels given as integers are cast to floating point numbers like all tensors (cross entropy wants integer classes). *)
Theorem C85_labels_refuted : forall T (cast : dtype -> dtype -> T -> T) x y,
  prepare_batch T cast (Some Double) (TupleD [Tensor Double x; Tensor Int y]) = Some (TupleD [Tensor Double (cast Double Double x); Tensor Double (cast Int Double y)]).
Proof. reflexivity. Qed.
Example C85_batch_witness : Forall (plain nat) [Tensor Float 1%nat; DictD [("k"%string, ListD [Tensor Int 2%nat; Missing])]]
  /\ prepare_batch nat (fun _ _ x => x) (Some Double) (ListD [Tensor Float 1%nat; DictD [("k"%string, ListD [Tensor Int 2%nat; Missing])]])
     = Some (TupleD [Tensor Double 1%nat; DictD [("k"%string, ListD [Tensor Double 2%nat; Missing])]]).
Proof. split; [repeat constructor|reflexivity]. Qed.

Print Assumptions C85_together.
Print Assumptions C85_stop.
Print Assumptions C85_batch.
