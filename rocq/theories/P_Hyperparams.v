(** C96: the hyperparameters that a tracking tool is given. *)
From Coq Require Import String List Bool Arith Lia.
From Coq Require Import List.
From Verif Require Import M_Hyperparams.
Import ListNotations.
Open Scope string_scope.

Section Hyperparams.
  Variable V : Type.
  Notation dict := (dict V).
  (** * Specification *)
  (** What TensorBoard can log: numbers, texts, truth values and tensors. *)
  Definition loggable (e : string * value V) : bool := existsb (fun b => b)
    [match fst (snd e) with TInt => true | _ => false end; match fst (snd e) with TFloat => true | _ => false end; match fst (snd e) with TStr => true | _ => false end;
     match fst (snd e) with TBool => true | _ => false end; match fst (snd e) with TTensor => true | _ => false end].
  (** What the user's entries have become after trainings with the tools [ts]. *)
  Definition left_over (ts : list tool) (d : dict) : dict := if existsb (fun t => match t with Tensorboard => true | Mlflow => false end) ts then filter loggable d else d.
  Definition given (d : dict) : option dict := match d with [] => None | _ => Some d end.

  (** * Proofs *)
  Lemma loggable_allowed e : loggable e = allowed V (snd e).
  Proof. unfold loggable, allowed. destruct (fst (snd e)); reflexivity. Qed.
  Lemma pop_skip (e : string * value V) k d : fst e <> k -> pop V k (e :: d) = option_map (cons e) (pop V k d).
  Proof. intros H. cbn [pop]. apply String.eqb_neq in H. rewrite H. reflexivity. Qed.
  Lemma pops_skip (e : string * value V) ks : ~ In (fst e) ks -> forall d, pops V ks (e :: d) = option_map (cons e) (pops V ks d).
  Proof.
    induction ks as [|k ks IH]; intros N d; [reflexivity|]. cbn [pops]. rewrite pop_skip by (intros E; apply N; left; symmetry; exact E).
    destruct (pop V k d) as [d'|]; cbn [option_map]; [|reflexivity]. apply IH. intros I. apply N. right. exact I.
  Qed.
  Lemma keys_in k (d : dict) : In k (keys_to_remove V d) -> In k (map fst d).
  Proof. unfold keys_to_remove. intros H. apply in_map_iff in H as (e & <- & I). apply filter_In in I as [I _]. apply in_map, I. Qed.
  Lemma pops_keys (d : dict) : NoDup (map fst d) -> pops V (keys_to_remove V d) d = Some (filter loggable d).
  Proof.
    induction d as [|e d IH]; intros N; [reflexivity|]. cbn [map] in N. inversion N as [|? ? N1 N2]; subst. specialize (IH N2). unfold keys_to_remove in *. cbn [filter]. rewrite loggable_allowed.
    destruct (allowed V (snd e)); cbn [negb].
    - rewrite pops_skip; [rewrite IH; reflexivity|]. intros I. apply N1, keys_in, I.
    - cbn [map pops pop]. rewrite String.eqb_refl. exact IH.
  Qed.
  Lemma filter_tb (d : dict) : NoDup (map fst d) -> filter_tb_hyperparams V d = Some (filter loggable d).
  Proof. intros N. unfold filter_tb_hyperparams. pose proof (pops_keys d N) as H. destruct (keys_to_remove V d); exact H. Qed.
  Lemma fit_spec t (d : dict) : NoDup (map fst d) -> fit V t d = Some (left_over [t] d, given (left_over [t] d)).
  Proof.
    intros N. assert (H : handle_hyperparams V t d = Some (left_over [t] d)).
    { destruct t; [destruct d; [reflexivity|exact (filter_tb _ N)]|destruct d; reflexivity]. }
    unfold fit. rewrite H. reflexivity.
  Qed.
  Lemma left_nodup ts (d : dict) : NoDup (map fst d) -> NoDup (map fst (left_over ts d)).
  Proof.
    unfold left_over. destruct (existsb _ ts); [|auto]. induction d as [|e d IH]; intros N; [constructor|]. cbn [map] in N. inversion N as [|? ? N1 N2]; subst.
    cbn [filter]. destruct (loggable e); [|auto]. cbn [map]. constructor; [|auto]. intros I. apply N1. apply in_map_iff in I as (x & <- & I). apply filter_In in I as [I _]. apply in_map, I.
  Qed.
  Lemma filter_twice (d : dict) : filter loggable (filter loggable d) = filter loggable d.
  Proof. induction d as [|e d IH]; [reflexivity|]. cbn [filter]. destruct (loggable e) eqn:E; [|exact IH]. cbn [filter]. rewrite E, IH. reflexivity. Qed.
  Lemma left_cons t ts (d : dict) : left_over ts (left_over [t] d) = left_over (t :: ts) d.
  Proof. unfold left_over. destruct t; cbn [existsb orb]; destruct (existsb _ ts); try reflexivity. apply filter_twice. Qed.

  (** No history of trainings raises; each run gives its tool the entries in their order, without those TensorBoard cannot log if this or
      an earlier run used TensorBoard; a run without entries gives it nothing. *)
  Theorem C96_runs : forall (d : dict) ts, NoDup (map fst d) ->
    exists logs, fits V ts d = Some (left_over ts d, logs) /\ length logs = length ts /\
    forall i, i < length ts -> nth_error logs i = Some (given (left_over (firstn (S i) ts) d)).
  Proof.
    intros d ts. revert d. induction ts as [|t ts IH]; intros d N; [exists []; repeat split; intros i H; inversion H|].
    destruct (IH (left_over [t] d) (left_nodup _ _ N)) as (logs & E & L & G). exists (given (left_over [t] d) :: logs).
    cbn [fits]. rewrite (fit_spec t d N), E, left_cons. split; [reflexivity|]. split; [cbn [length]; rewrite L; reflexivity|].
    intros [|i] H; [reflexivity|]. cbn [nth_error]. rewrite G by (cbn [length] in H; lia). rewrite left_cons. reflexivity.
  Qed.
  (** TensorBoard is never given an entry it cannot log, whatever was done before, and always all the others. *)
  Theorem C96_tensorboard : forall (d : dict) ts d' logs x e, NoDup (map fst d) -> fits V (ts ++ [Tensorboard]) d = Some (d', logs) -> last logs None = Some x ->
    In e x <-> In e d /\ loggable e = true.
  Proof.
    intros d ts d' logs x e N H L. destruct (C96_runs d (ts ++ [Tensorboard]) N) as (logs' & E & LL & G). rewrite E in H. injection H as <- <-.
    rewrite app_length in LL, G. cbn [length] in LL, G. specialize (G (length ts) ltac:(lia)).
    assert (LAST : forall (l : list (option dict)) n z, length l = n + 1 -> nth_error l n = Some z -> last l None = z).
    { intros l n z Hl Hn. destruct (exists_last (l := l)) as (l' & y & ->); [intros ->; cbn in Hl; lia|]. rewrite app_length in Hl. cbn [length] in Hl. rewrite last_last.
      rewrite nth_error_app2 in Hn by lia. replace (n - length l') with 0 in Hn by lia. injection Hn as ->. reflexivity. }
    apply (LAST _ _ _ LL) in G. rewrite G in L. replace (S (length ts)) with (length (ts ++ [Tensorboard])) in L by (rewrite app_length; cbn; lia). rewrite firstn_all in L.
    unfold left_over in L. rewrite existsb_app in L. cbn [existsb orb] in L. rewrite orb_true_r in L. assert (X : x = filter loggable d) by (unfold given in L; destruct (filter loggable d); congruence).
    rewrite X. apply filter_In.
  Qed.
  (** With MLflow alone nothing is lost. *)
  Theorem C96_mlflow : forall (d : dict) n, d <> [] -> NoDup (map fst d) -> fits V (repeat Mlflow n) d = Some (d, repeat (Some d) n).
  Proof. intros d n H N. induction n as [|n IH]; [reflexivity|]. cbn [repeat fits]. rewrite (fit_spec Mlflow d N). unfold left_over at 1 2. cbn [existsb orb]. rewrite IH. destruct d; [congruence|reflexivity]. Qed.
  (** But a run with TensorBoard removes entries from the user's configuration: a later run with MLflow, which could log them, does not. *)
  Theorem C96_history_refuted : forall v w : V, let d := [("layers", (TOther "list", v)); ("lr", (TFloat, w))] in
    fits V [Mlflow] d = Some (d, [Some d]) /\ fits V [Tensorboard; Mlflow] d = Some ([("lr", (TFloat, w))], [Some [("lr", (TFloat, w))]; Some [("lr", (TFloat, w))]]).
  Proof. intros v w d. split; reflexivity. Qed.
  (** And if the tool is changed in the configuration of an existing trainer, TensorBoard is given entries it cannot log; if the configuration
      is not changed, it is not. *)
  Theorem C96_writer_refuted : forall v : V, let d := [("layers", (TOther "list", v))] in fit_kept V Tensorboard Mlflow d = Some (d, Some (Tensorboard, d)).
  Proof. reflexivity. Qed.
  Theorem C96_writer : forall t (d d' : dict) w x e, NoDup (map fst d) -> fit_kept V t t d = Some (d', Some (w, x)) -> w = t /\ (w = Tensorboard -> In e x -> loggable e = true).
  Proof.
    intros t d d' w x e N H. unfold fit_kept in H. rewrite (fit_spec t d N) in H. unfold given in H.
    destruct (left_over [t] d) as [|a r] eqn:E; cbn [option_map] in H; [discriminate H|]. injection H as <- <- <-. split; [reflexivity|].
    intros -> I. rewrite <- E in I. unfold left_over in I. cbn [existsb orb] in I. apply filter_In in I. apply I.
  Qed.
  Example C96_example : forall u v w : V, let d := [("a", (TInt, u)); ("b", (TOther "dict", v)); ("c", (TTensor, w)); ("d", (TOther "list", v))] in
    NoDup (map fst d) /\ fits V [Mlflow; Tensorboard] d = Some ([("a", (TInt, u)); ("c", (TTensor, w))], [Some d; Some [("a", (TInt, u)); ("c", (TTensor, w))]]) /\
    fits V [Tensorboard] [("b", (TOther "dict", v))] = Some ([], [None]).
  Proof. intros u v w d. split; [|split; reflexivity]. repeat constructor; cbn; intuition discriminate. Qed.
End Hyperparams.
Print Assumptions C96_runs.
Print Assumptions C96_tensorboard.
Print Assumptions C96_mlflow.
Print Assumptions C96_history_refuted.
Print Assumptions C96_writer_refuted.
Print Assumptions C96_writer.
