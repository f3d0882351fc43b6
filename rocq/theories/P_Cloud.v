(** C77: what a user of the remote platform can rely on. *)
From Coq Require Import String Reals List Arith Bool ZArith Lia Lra.
From Coq Require Import List.
From Verif Require Import M_Cloud.
Import ListNotations.
Open Scope R_scope.

(** * Waiting for a result *)
(** Specification: the statuses of a workload that may still finish. *)
Definition unfinished (s : status) : Prop := s = Pending \/ s = Running \/ s = Paused.
(** The times at which the status is asked for: every [refresh] from 0, as long as another [refresh] fits in [timeout]. *)
Definition asked (timeout refresh t : R) : Prop := exists k : nat, t = INR k * refresh /\ INR (S k) * refresh <= timeout.

Lemma unfinished_check : forall s, unfinished s <-> check_status s = NotDoneError.
Proof.
  intros s; split.
  - intros [-> | [-> | ->]]; reflexivity.
  - destruct s; simpl; try discriminate; unfold unfinished; tauto.
Qed.

Lemma count_spec : forall timeout refresh k, 0 < refresh ->
  ((k < refresh_count timeout refresh)%nat <-> INR (S k) * refresh <= timeout).
Proof.
  intros timeout refresh k Hr; unfold refresh_count.
  destruct (base_Int_part (timeout / refresh)) as [H1 H2].
  assert (E : timeout = timeout / refresh * refresh) by (field; lra).
  set (q := timeout / refresh) in *. set (z := Int_part q) in *.
  split; intros H.
  - assert (Hz : (Z.of_nat (S k) <= z)%Z) by lia.
    apply IZR_le in Hz. rewrite <- INR_IZR_INZ in Hz. rewrite E. apply Rmult_le_compat_r; lra.
  - rewrite E in H. apply Rmult_le_reg_r in H; [| exact Hr].
    rewrite INR_IZR_INZ in H.
    assert (L : IZR (Z.of_nat (S k)) < IZR (z + 1)) by (rewrite plus_IZR; lra).
    apply lt_IZR in L. apply Nat2Z.inj_lt. rewrite Z2Nat.id; lia.
Qed.

(** The loop, step by step. *)
Lemma poll_spec : forall remote refresh n s, 0 < refresh ->
  let t k := s + INR k * refresh in
  match poll remote refresh n s with
  | Returned u => exists k, (k < n)%nat /\ u = t k /\ remote u = Done /\ forall j, (j < k)%nat -> unfinished (remote (t j))
  | RaisedStopped u => exists k, (k < n)%nat /\ u = t k /\ check_status (remote u) = StoppedError /\ forall j, (j < k)%nat -> unfinished (remote (t j))
  | RaisedUndefined u => exists k, (k < n)%nat /\ u = t k /\ remote u = Unknown /\ forall j, (j < k)%nat -> unfinished (remote (t j))
  | RaisedTimeout u => u = t n /\ forall j, (j < n)%nat -> unfinished (remote (t j))
  | RaisedZeroDivision | RaisedNegativeSleep => False
  end.
Proof.
  intros remote refresh n; induction n as [|n IH]; intros s Hr t; unfold t; simpl.
  - split; [lra | intros; lia].
  - destruct (check_status (remote s)) eqn:E.
    + exists 0%nat; split; [lia |]; split; [simpl; lra |]; split; [| intros; lia].
      destruct (remote s); simpl in E; congruence.
    + destruct (Rlt_dec refresh 0); [lra |].
      specialize (IH (s + refresh) Hr). simpl in IH.
      assert (T : forall j, s + refresh + INR j * refresh = s + INR (S j) * refresh) by (intros j; rewrite S_INR; ring).
      assert (U : forall k, (forall j, (j < k)%nat -> unfinished (remote (s + refresh + INR j * refresh))) ->
                            forall j, (j < S k)%nat -> unfinished (remote (s + INR j * refresh))).
      { intros k H [|j] Hj; [| rewrite <- T; apply H; lia].
        simpl; rewrite Rmult_0_l, Rplus_0_r; apply unfinished_check; exact E. }
      destruct (poll remote refresh n (s + refresh)); try contradiction.
      1-3: destruct IH as (k & Hk & -> & Hd & Hu); exists (S k); split; [lia |]; split; [apply T | split; [exact Hd | apply U; exact Hu]].
      destruct IH as (-> & Hu); split; [| apply U; exact Hu].
      rewrite T; reflexivity.
    + exists 0%nat; split; [lia |]; split; [simpl; lra |]; split; [exact E | intros; lia].
    + exists 0%nat; split; [lia |]; split; [simpl; lra |]; split; [| intros; lia].
      destruct (remote s); simpl in E; congruence.
Qed.

Lemma asked_spec : forall timeout refresh t, 0 < refresh ->
  (asked timeout refresh t <-> exists k, (k < refresh_count timeout refresh)%nat /\ t = 0 + INR k * refresh).
Proof.
  intros timeout refresh t Hr; split; intros (k & A & B); exists k.
  - split; [apply count_spec; assumption | lra].
  - split; [lra | apply count_spec; assumption].
Qed.

Lemma get_poll : forall remote timeout refresh, 0 < refresh ->
  get_result remote timeout refresh = poll remote refresh (refresh_count timeout refresh) 0.
Proof. intros; unfold get_result; destruct (Req_EM_T refresh 0); [lra | reflexivity]. Qed.

(** Two moments at which the status is asked for and is final, nothing being final before either, are the same. *)
Lemma first_unique : forall remote refresh k k' u, 0 < refresh -> u = 0 + INR k' * refresh ->
  (forall j, (j < k)%nat -> unfinished (remote (0 + INR j * refresh))) ->
  ~ unfinished (remote (0 + INR k * refresh)) ->
  (forall j, (j < k')%nat -> unfinished (remote (0 + INR j * refresh))) ->
  ~ unfinished (remote u) -> k = k'.
Proof.
  intros remote refresh k k' u Hr -> A B A' B'.
  destruct (lt_eq_lt_dec k k') as [[L | E] | L]; [exfalso; apply B; apply A'; exact L | exact E | exfalso; apply B'; apply A; exact L].
Qed.

(** Specification: the first status, among those asked for, that is not "not finished yet". *)
Definition first_final (remote : R -> status) (timeout refresh t : R) : Prop :=
  asked timeout refresh t /\ ~ unfinished (remote t) /\ forall u, asked timeout refresh u -> u < t -> unfinished (remote u).

Lemma first_final_spec : forall remote timeout refresh t, 0 < refresh ->
  (first_final remote timeout refresh t <->
   exists k, (k < refresh_count timeout refresh)%nat /\ t = 0 + INR k * refresh /\ ~ unfinished (remote t) /\
             forall j, (j < k)%nat -> unfinished (remote (0 + INR j * refresh))).
Proof.
  intros remote timeout refresh t Hr; split.
  - intros (A & B & D). apply asked_spec in A; [| exact Hr]. destruct A as (k & Hk & ->). exists k; repeat split; try assumption.
    intros j Hj. apply D; [apply asked_spec; [exact Hr | exists j; split; [lia | reflexivity]] |].
    apply Rplus_lt_compat_l, Rmult_lt_compat_r; [exact Hr | apply lt_INR; exact Hj].
  - intros (k & Hk & -> & B & D). split; [apply asked_spec; [exact Hr | exists k; split; [exact Hk | reflexivity]] |].
    split; [exact B |]. intros u Hu L. apply asked_spec in Hu; [| exact Hr]. destruct Hu as (j & Hj & ->).
    apply D. apply INR_lt. apply Rplus_lt_reg_l in L. apply Rmult_lt_reg_r in L; assumption.
Qed.

Lemma done_final : forall s, s = Done -> ~ unfinished s.
Proof. intros s -> [H | [H | H]]; discriminate. Qed.
Lemma stopped_final : forall s, check_status s = StoppedError -> ~ unfinished s.
Proof. intros s H U; apply unfinished_check in U; congruence. Qed.
Lemma unknown_final : forall s, s = Unknown -> ~ unfinished s.
Proof. intros s -> [H | [H | H]]; discriminate. Qed.

(** Whatever the workload goes through, [get_result] reports the first final status it is told, and only that: the
    result if it is done; the error of a stopped workload; the error of an unknown status; a timeout if every status
    it was told is "not finished yet". *)
Theorem C77_result : forall remote timeout refresh, 0 < refresh ->
  (forall t, get_result remote timeout refresh = Returned t <-> first_final remote timeout refresh t /\ remote t = Done) /\
  (forall t, get_result remote timeout refresh = RaisedStopped t <->
             first_final remote timeout refresh t /\ (remote t = Canceled \/ remote t = TimedOut \/ remote t = Errored)) /\
  (forall t, get_result remote timeout refresh = RaisedUndefined t <-> first_final remote timeout refresh t /\ remote t = Unknown) /\
  ((exists t, get_result remote timeout refresh = RaisedTimeout t) <-> forall t, asked timeout refresh t -> unfinished (remote t)).
Proof.
  intros remote timeout refresh Hr.
  rewrite get_poll by exact Hr.
  pose proof (poll_spec remote refresh (refresh_count timeout refresh) 0 Hr) as P. cbv zeta in P.
  assert (St : forall s, check_status s = StoppedError <-> s = Canceled \/ s = TimedOut \/ s = Errored).
  { intros s; split; [destruct s; simpl; intros; try discriminate; tauto | intros [-> | [-> | ->]]; reflexivity]. }
  assert (FF := first_final_spec remote timeout refresh).
  assert (Uq : forall t t', first_final remote timeout refresh t -> first_final remote timeout refresh t' -> t = t').
  { intros t t' F F'. apply FF in F; [| exact Hr]. apply FF in F'; [| exact Hr].
    destruct F as (k & Hk & -> & B & D). destruct F' as (k' & Hk' & -> & B' & D').
    rewrite (first_unique remote refresh k k' _ Hr eq_refl D B D' B'). reflexivity. }
  assert (As : forall t, first_final remote timeout refresh t -> ~ (forall u, asked timeout refresh u -> unfinished (remote u))).
  { intros t (A & B & _) H. exact (B (H t A)). }
  destruct (poll remote refresh (refresh_count timeout refresh) 0) as [u | u | u | u | |]; try contradiction.
  - destruct P as (k & Hk & Eu & Hd & Hu).
    assert (F : first_final remote timeout refresh u).
    { apply FF; [exact Hr |]. exists k; split; [exact Hk |]; split; [exact Eu |]; split; [apply done_final; exact Hd | exact Hu]. }
    split; [| split; [| split]].
    + intros t; split; [intros [= <-]; split; assumption | intros [F' _]; rewrite (Uq _ _ F F'); reflexivity].
    + intros t; split; [discriminate | intros [F' H]; rewrite <- (Uq _ _ F F'), Hd in H; destruct H as [H | [H | H]]; discriminate].
    + intros t; split; [discriminate | intros [F' H]; rewrite <- (Uq _ _ F F'), Hd in H; discriminate].
    + split; [intros [t H]; discriminate | intros H; destruct (As _ F H)].
  - destruct P as (k & Hk & Eu & Hd & Hu).
    assert (F : first_final remote timeout refresh u).
    { apply FF; [exact Hr |]. exists k; split; [exact Hk |]; split; [exact Eu |]; split; [apply stopped_final; exact Hd | exact Hu]. }
    split; [| split; [| split]].
    + intros t; split; [discriminate | intros [F' H]; rewrite <- (Uq _ _ F F') in H; rewrite H in Hd; discriminate].
    + intros t; split; [intros [= <-]; split; [exact F | apply St; exact Hd] | intros [F' _]; rewrite (Uq _ _ F F'); reflexivity].
    + intros t; split; [discriminate | intros [F' H]; rewrite <- (Uq _ _ F F') in H; rewrite H in Hd; discriminate].
    + split; [intros [t H]; discriminate | intros H; destruct (As _ F H)].
  - destruct P as (k & Hk & Eu & Hd & Hu).
    assert (F : first_final remote timeout refresh u).
    { apply FF; [exact Hr |]. exists k; split; [exact Hk |]; split; [exact Eu |]; split; [apply unknown_final; exact Hd | exact Hu]. }
    split; [| split; [| split]].
    + intros t; split; [discriminate | intros [F' H]; rewrite <- (Uq _ _ F F') in H; rewrite H in Hd; discriminate].
    + intros t; split; [discriminate | intros [F' H]; rewrite <- (Uq _ _ F F'), Hd in H; destruct H as [H | [H | H]]; discriminate].
    + intros t; split; [intros [= <-]; split; assumption | intros [F' _]; rewrite (Uq _ _ F F'); reflexivity].
    + split; [intros [t H]; discriminate | intros H; destruct (As _ F H)].
  - destruct P as (Eu & Hu).
    assert (A : forall t, asked timeout refresh t -> unfinished (remote t)).
    { intros t Ht. apply asked_spec in Ht; [| exact Hr]. destruct Ht as (k & Hk & ->). apply Hu; exact Hk. }
    split; [| split; [| split]].
    1-3: intros t; split; [discriminate | intros [F' _]; destruct (As _ F' A)].
    split; [intros _; exact A | intros _; exists u; reflexivity].
Qed.

(** It never waits longer than the timeout, and when it gives up less than one [refresh] of the timeout is left. *)
Theorem C77_time : forall remote timeout refresh, 0 < refresh -> 0 <= timeout ->
  match get_result remote timeout refresh with
  | Returned t | RaisedStopped t | RaisedUndefined t => 0 <= t /\ t + refresh <= timeout
  | RaisedTimeout t => 0 <= t /\ t <= timeout < t + refresh
  | RaisedZeroDivision | RaisedNegativeSleep => False
  end.
Proof.
  intros remote timeout refresh Hr Ht. rewrite get_poll by exact Hr.
  pose proof (poll_spec remote refresh (refresh_count timeout refresh) 0 Hr) as P. cbv zeta in P.
  assert (G : forall k, (k < refresh_count timeout refresh)%nat -> 0 <= 0 + INR k * refresh /\ 0 + INR k * refresh + refresh <= timeout).
  { intros k Hk. apply count_spec in Hk; [| exact Hr]. rewrite S_INR in Hk. pose proof (pos_INR k).
    split; [| lra]. assert (0 <= INR k * refresh) by (apply Rmult_le_pos; lra). lra. }
  destruct (poll remote refresh (refresh_count timeout refresh) 0) as [u | u | u | u | |]; try contradiction.
  1-3: destruct P as (k & Hk & -> & _); apply G; exact Hk.
  destruct P as (-> & _). set (n := refresh_count timeout refresh) in *.
  assert (Hn : ~ (n < n)%nat) by lia. unfold n at 2 in Hn. rewrite count_spec in Hn by exact Hr. rewrite S_INR in Hn.
  pose proof (pos_INR n). assert (0 <= INR n * refresh) by (apply Rmult_le_pos; lra).
  split; [lra |]. split; [| lra].
  destruct n as [|m] eqn:E; [simpl; lra |].
  assert (Hm : (m < refresh_count timeout refresh)%nat) by (fold n; lia). apply count_spec in Hm; [| exact Hr]. lra.
Qed.

(** A refresh time of zero is an error of its own, whatever the workload does. *)
Theorem C77_zero : forall remote timeout, get_result remote timeout 0 = RaisedZeroDivision.
Proof. intros; unfold get_result; destruct (Req_EM_T 0 0); [reflexivity | contradiction]. Qed.

(** Finding: with a refresh time longer than the timeout the status is never asked for: a workload that is done all
    along is reported as not finished in time. *)
Theorem C77_short_refuted : exists remote timeout refresh, (forall t, remote t = Done) /\ 0 < timeout /\ 0 < refresh /\
  get_result remote timeout refresh = RaisedTimeout 0.
Proof.
  exists (fun _ => Done), (1/2), 1. repeat split; try lra. rewrite get_poll by lra.
  assert (E : refresh_count (1/2) 1 = 0%nat).
  { destruct (refresh_count (1/2) 1) as [|m] eqn:E; [reflexivity |].
    assert (H : (0 < refresh_count (1/2) 1)%nat) by lia. apply count_spec in H; [simpl in H; lra | lra]. }
  rewrite E; reflexivity.
Qed.

(** Finding: the time of the last wait is wasted.  Whatever whole number of refresh times the timeout is, a workload
    that finishes during the last of them, before the timeout, is reported as not finished in time. *)
Theorem C77_late_refuted : forall n refresh, 0 < refresh -> (0 < n)%nat ->
  exists remote finish, (forall t, finish <= t -> remote t = Done) /\ (forall t, t < finish -> remote t = Running) /\
    finish < INR n * refresh /\ get_result remote (INR n * refresh) refresh = RaisedTimeout (INR n * refresh).
Proof.
  intros n refresh Hr Hn.
  set (finish := INR n * refresh - refresh / 2).
  exists (fun t => if Rle_dec finish t then Done else Running), finish.
  split; [intros t H; destruct (Rle_dec finish t); [reflexivity | contradiction] |].
  split; [intros t H; destruct (Rle_dec finish t); [lra | reflexivity] |].
  split; [unfold finish; lra |].
  rewrite get_poll by exact Hr.
  assert (E : refresh_count (INR n * refresh) refresh = n).
  { assert (Q : forall k, (k < refresh_count (INR n * refresh) refresh)%nat <-> (k < n)%nat).
    { intros k. rewrite count_spec by exact Hr. split; intros H.
      - apply Rmult_le_reg_r in H; [| exact Hr]. apply INR_le in H. lia.
      - apply Rmult_le_compat_r; [lra |]. apply le_INR. lia. }
    pose proof (Q n) as Q1. pose proof (Q (refresh_count (INR n * refresh) refresh)) as Q2. lia. }
  rewrite E.
  pose proof (poll_spec (fun t => if Rle_dec finish t then Done else Running) refresh n 0 Hr) as P. cbv zeta in P.
  assert (Bad : forall k, (k < n)%nat -> (if Rle_dec finish (0 + INR k * refresh) then Done else Running) = Running).
  { intros k Hk. destruct (Rle_dec finish (0 + INR k * refresh)) as [L | L]; [| reflexivity]. exfalso.
    assert (INR (S k) <= INR n) by (apply le_INR; lia). rewrite S_INR in H.
    assert ((INR k + 1) * refresh <= INR n * refresh) by (apply Rmult_le_compat_r; lra). unfold finish in L; lra. }
  destruct (poll _ refresh n 0) as [u | u | u | u | |]; try contradiction.
  - destruct P as (k & Hk & -> & Hd & _). rewrite (Bad k Hk) in Hd. discriminate.
  - destruct P as (k & Hk & -> & Hd & _). rewrite (Bad k Hk) in Hd. discriminate.
  - destruct P as (k & Hk & -> & Hd & _). rewrite (Bad k Hk) in Hd. discriminate.
  - destruct P as (-> & _). f_equal; lra.
Qed.

Example a_wait : get_result (fun t => if Rle_dec 1 t then Done else Pending) 3 1 = Returned 1.
Proof.
  rewrite get_poll by lra.
  assert (E : refresh_count 3 1 = 3%nat).
  { assert (A : (2 < refresh_count 3 1)%nat) by (apply count_spec; simpl; lra).
    assert (B : ~ (3 < refresh_count 3 1)%nat) by (rewrite count_spec by lra; simpl; lra). lia. }
  rewrite E. simpl. destruct (Rle_dec 1 0); [lra |]. simpl. destruct (Rlt_dec 1 0); [lra |].
  destruct (Rle_dec 1 (0 + 1)); [| lra]. simpl. f_equal; lra.
Qed.

(** * What a workload may contain *)
(** Specification: a value is a number or an array. *)
Definition small (v : string * tensor) : Prop := t_shape (snd v) = [] \/ exists n, t_shape (snd v) = [n].
(** The arrays among the values have one length. *)
Definition one_length (vs : list (string * tensor)) : Prop :=
  forall v w n m, In v vs -> In w vs -> t_shape (snd v) = [n] -> t_shape (snd w) = [m] -> n = m.

Lemma in_lengths : forall vs n, In n (lengths vs) <-> exists v, In v vs /\ t_shape (snd v) = [n].
Proof.
  intros vs n; unfold lengths; rewrite in_flat_map; split.
  - intros (v & Hv & H). destruct (t_shape (snd v)) as [|a [|b r]] eqn:E; try contradiction.
    destruct H as [-> | []]. exists v; split; assumption.
  - intros (v & Hv & E). exists v; split; [exact Hv |]. rewrite E; left; reflexivity.
Qed.

Lemma one_length_spec : forall vs, forallb (fun n => Nat.eqb n (hd 0%nat (lengths vs))) (lengths vs) = true <-> one_length vs.
Proof.
  intros vs; rewrite forallb_forall; split.
  - intros H v w n m Hv Hw En Em.
    assert (A : In n (lengths vs)) by (apply in_lengths; exists v; split; assumption).
    assert (B : In m (lengths vs)) by (apply in_lengths; exists w; split; assumption).
    apply H in A. apply H in B. apply Nat.eqb_eq in A, B. congruence.
  - intros H n Hn. apply Nat.eqb_eq.
    destruct (lengths vs) as [|m r] eqn:E; [contradiction |].
    assert (A : In m (lengths vs)) by (rewrite E; left; reflexivity). rewrite <- E in Hn.
    apply in_lengths in A. apply in_lengths in Hn. destruct A as (w & Hw & Ew). destruct Hn as (v & Hv & Ev).
    simpl. exact (H v w n m Hv Hw Ev Em) || exact (H v w n m Hv Hw Ev Ew).
Qed.

(** Exactly which parameter values are accepted: some value is a number or an array, and the arrays agree in length. *)
Theorem C77_values : forall vs, valid_values (Some vs) = true <-> (exists v, In v vs /\ small v) /\ one_length vs.
Proof.
  intros vs; unfold valid_values.
  assert (K : forallb (fun v => Nat.ltb 1 (length (t_shape (snd v)))) vs = false <-> exists v, In v vs /\ small v).
  { split.
    - induction vs as [|v r IH]; simpl; [discriminate |]. intros H. apply andb_false_iff in H. destruct H as [H | H].
      + exists v; split; [left; reflexivity |]. apply Nat.ltb_ge in H. unfold small.
        destruct (t_shape (snd v)) as [|a [|b q]]; simpl in H; [left; reflexivity | right; exists a; reflexivity | lia].
      + destruct (IH H) as (w & Hw & Sw). exists w; split; [right; exact Hw | exact Sw].
    - intros (v & Hv & Sv). destruct (forallb _ vs) eqn:E; [| reflexivity]. rewrite forallb_forall in E. specialize (E v Hv).
      apply Nat.ltb_lt in E. destruct Sv as [Sv | [n Sv]]; rewrite Sv in E; simpl in E; lia. }
  rewrite <- one_length_spec. destruct (forallb (fun v => Nat.ltb 1 (length (t_shape (snd v)))) vs).
  - split; [discriminate | intros [H _]; apply K in H; discriminate].
  - split; [intros H; split; [apply K; reflexivity | exact H] | intros [_ H]; exact H].
Qed.

(** In particular values that are all numbers or arrays of one length are accepted, unless there are none. *)
Theorem C77_values_accepted : forall vs, vs <> [] -> (forall v, In v vs -> small v) -> one_length vs -> valid_values (Some vs) = true.
Proof.
  intros [|v r] N Hs Ho; [contradiction |]. apply C77_values; split; [| exact Ho].
  exists v; split; [left; reflexivity | apply Hs; left; reflexivity].
Qed.

(** Finding: a matrix is accepted as long as another value is a number or an array. *)
Theorem C77_matrix_refuted : exists vs v, In v vs /\ t_shape (snd v) = [2%nat; 2%nat] /\ valid_values (Some vs) = true.
Proof.
  exists [("a"%string, {| t_shape := []; t_data := [1] |}); ("b"%string, {| t_shape := [2%nat; 2%nat]; t_data := [1; 2; 3; 4] |})], ("b"%string, {| t_shape := [2%nat; 2%nat]; t_data := [1; 2; 3; 4] |}).
  split; [right; left; reflexivity |]. split; reflexivity.
Qed.

(** Finding: no values at all are rejected as having a wrong dimension when they come as an empty dictionary. *)
Theorem C77_empty_refuted : valid_values (Some []) = false /\ valid_values None = true.
Proof. split; reflexivity. Qed.

(** A workload is accepted exactly when its values are and an observable is there if an expectation is asked for. *)
Theorem C77_valid : forall (Circuit Block : Type) (s : spec Circuit Block),
  valid Circuit Block s = true <->
  (In EXPECTATION (s_types _ _ s) -> s_observable _ _ s <> None) /\ valid_values (s_values _ _ s) = true.
Proof.
  intros Circuit Block s; unfold valid. rewrite andb_true_iff, negb_true_iff.
  assert (W : wants_expectation (s_types _ _ s) = true <-> In EXPECTATION (s_types _ _ s)).
  { unfold wants_expectation; rewrite existsb_exists; split.
    - intros (x & Hx & E); destruct x; try discriminate; exact Hx.
    - intros H; exists EXPECTATION; split; [exact H | reflexivity]. }
  destruct (s_observable _ _ s) as [o|].
  - rewrite andb_false_r. split; intros [_ B]; (split; [intros; discriminate || reflexivity | exact B]) || (split; [reflexivity | exact B]).
  - rewrite andb_true_r. split; intros [A B]; split; try exact B.
    + intros H. apply W in H. congruence.
    + destruct (wants_expectation (s_types _ _ s)); [| reflexivity]. exfalso. apply (A (proj1 W eq_refl)). reflexivity.
Qed.

Lemma type_name_inj : forall a b, type_name a = type_name b -> a = b.
Proof. intros [] []; simpl; intros; congruence. Qed.
Lemma type_names_inj : forall l m, map type_name l = map type_name m -> l = m.
Proof. induction l as [|a l IH]; intros [|b m] H; simpl in H; try discriminate; [reflexivity |]. injection H as H1 H2. f_equal; [apply type_name_inj; exact H1 | apply IH; exact H2]. Qed.

(** What is sent determines the workload: with faithful texts, two accepted workloads with the same content sent are
    the same workload, including whether parameter values were given.  (Texts of matrices need not be faithful, so the
    values are numbers or arrays.) *)
Theorem C77_submit : forall (Circuit Block Text : Type) circuit_text block_text values_text (s s' : spec Circuit Block),
  (forall c c', circuit_text c = circuit_text c' -> c = c') ->
  (forall b b', block_text b = block_text b' -> b = b') ->
  (forall vs vs', (forall v, In v (vs ++ vs') -> small v) -> values_text vs = values_text vs' -> vs = vs') ->
  valid _ _ s = true -> valid _ _ s' = true ->
  (forall vs v, s_values _ _ s = Some vs \/ s_values _ _ s' = Some vs -> In v vs -> small v) ->
  submit Circuit Block Text circuit_text block_text values_text s = submit Circuit Block Text circuit_text block_text values_text s' ->
  s = s'.
Proof.
  intros Circuit Block Text ct bt vt [c b ts vs o] [c' b' ts' vs' o'] Ic Ib Iv V V' Sm E.
  apply C77_valid in V. apply C77_valid in V'. destruct V as [_ V]. destruct V' as [_ V']. simpl in *.
  unfold submit in E; simpl in E. injection E as E1 E2 E3 E4 E5.
  apply Ic in E2. apply type_names_inj in E3.
  assert (Eo : o = o').
  { destruct o, o'; simpl in E5; try discriminate; [| reflexivity]. injection E5 as E5. f_equal; apply Ib; exact E5. }
  assert (Ev : vs = vs').
  { apply Iv in E4.
    - destruct vs as [l|], vs' as [l'|]; simpl in E4; subst; try reflexivity; discriminate.
    - intros v Hv. apply in_app_or in Hv. destruct Hv as [Hv | Hv].
      + destruct vs as [l|]; [apply (Sm l v); [left; reflexivity | exact Hv] | contradiction].
      + destruct vs' as [l|]; [apply (Sm l v); [right; reflexivity | exact Hv] | contradiction]. }
  subst; reflexivity.
Qed.

(** A faithful text, and two workloads that differ: what is sent differs. *)
Definition text : Type := (nat + nat) + list (string * tensor).
Example faithful_texts :
  let send := submit nat nat text (fun c => inl (inl c)) (fun b => inl (inr b)) (fun vs => inr vs) in
  let w x := {| s_circuit := 3%nat; s_backend := "pyqtorch"; s_types := [SAMPLE; EXPECTATION]; s_values := Some [("x"%string, {| t_shape := [2%nat]; t_data := [x; 1] |})]; s_observable := Some 4%nat |} in
  valid nat nat (w 0) = true /\ valid nat nat (w 1) = true /\ send (w 0) <> send (w 1).
Proof.
  simpl. split; [reflexivity | split; [reflexivity |]].
  intros H. apply C77_submit in H; try reflexivity; try congruence.
  - injection H as H. lra.
  - intros vs v [E | E]; injection E as <-; intros [<- | []]; right; exists 2%nat; reflexivity.
Qed.

(** Finding: a workload made from a model does not contain what the model has learnt: whatever the values of its
    variational parameters, what is sent is the same. *)
Theorem C77_trained_refuted : forall (Circuit Block : Type) (m m' : model Circuit Block) ts vs o,
  m_original _ _ m = m_original _ _ m' -> m_backend _ _ m = m_backend _ _ m' ->
  workload_spec _ _ m ts vs o = workload_spec _ _ m' ts vs o.
Proof. intros Circuit Block m m' ts vs o E1 E2; unfold workload_spec; rewrite E1, E2; reflexivity. Qed.

Definition trained_at (x : R) : model nat nat := {| m_original := 7%nat; m_backend := "pyqtorch"; m_trained := [("theta"%string, x)]; m_observable := None |}.
Example two_trainings : trained_at 0 <> trained_at 1 /\
  workload_spec _ _ (trained_at 0) [RUN] None None = workload_spec _ _ (trained_at 1) [RUN] None None /\
  valid _ _ (workload_spec _ _ (trained_at 0) [RUN] None None) = true.
Proof.
  split; [intros [= H]; lra | split; reflexivity].
Qed.

(** * Clients *)
(** Specification: [k] was made for the credentials [c] with the variables [v]. *)
Definition made_for (v : variables) (c : credentials) (k : client) : Prop :=
  let use g var d := match g with Some s => s | None => match var with Some s => s | None => d end end in
  client_username k = use (username c) (v_username v) ""%string /\
  client_password k = use (password c) (v_password v) ""%string /\
  client_project k = use (project c) (v_project v) ""%string /\
  client_token k = token c /\
  (client_project k <> ""%string /\ (token c <> None \/ (client_username k <> ""%string /\ client_password k <> ""%string))) /\
  let e := use (environment c) (v_environment v) "prod"%string in
  (e = "preprod"%string /\ client_env k = "preprod"%string \/ e = "dev"%string /\ client_env k = "dev"%string \/
   e <> "preprod"%string /\ e <> "dev"%string /\ client_env k = "prod"%string).

Lemma truthy_spec : forall s, truthy s = true <-> s <> ""%string.
Proof. intros s; unfold truthy; rewrite negb_true_iff; apply String.eqb_neq. Qed.

Lemma make_made_for : forall id v c k, make_client id v c = Some k -> made_for v c k /\ client_id k = id.
Proof.
  intros id v c k; unfold make_client.
  destruct (_ || _) eqn:E; [| discriminate]. intros [= <-]. split; [| reflexivity].
  unfold made_for; simpl. unfold or_variable in *.
  split; [reflexivity |]; split; [reflexivity |]; split; [reflexivity |]; split; [reflexivity |]. split.
  - apply orb_true_iff in E. destruct E as [E | E].
    + apply andb_true_iff in E. destruct E as [E E3]. apply andb_true_iff in E. destruct E as [E1 E2].
      split; [apply truthy_spec; exact E3 | right; split; apply truthy_spec; assumption].
    + apply andb_true_iff in E. destruct E as [E1 E2]. split; [apply truthy_spec; exact E2 | left; destruct (token c); [discriminate | discriminate E1]].
  - set (e := match environment c with Some s => s | None => match v_environment v with Some s => s | None => "prod"%string end end).
    destruct (String.eqb e "preprod") eqn:A; [apply String.eqb_eq in A; left; split; [exact A | reflexivity] |].
    apply String.eqb_neq in A. destruct (String.eqb e "dev") eqn:B.
    + apply String.eqb_eq in B; right; left; split; [exact B | reflexivity].
    + apply String.eqb_neq in B; right; right; split; [exact A | split; [exact B | reflexivity]].
Qed.

(** [moment v0 h v c]: at some point of the history [h] that starts with variables [v0], the variables were [v] and a
    client for [c] was asked for. *)
Definition moment (v0 : variables) (h : list event) (v : variables) (c : credentials) : Prop :=
  exists h1 h2, h = h1 ++ Ask c :: h2 /\ v = fold_left (fun w e => match e with SetVariables x => x | Ask _ => w end) h1 v0.

Lemma vars_after : forall h p, vars (after p h) = fold_left (fun w e => match e with SetVariables x => x | Ask _ => w end) h (vars p).
Proof.
  induction h as [|e h IH]; intros p; [reflexivity |]. unfold after in *; simpl. rewrite IH. f_equal.
  destruct e as [v | c]; simpl; [reflexivity |]. unfold get_client. destruct (cached c (cache p)); [reflexivity |].
  destruct (make_client (made p) (vars p) c); reflexivity.
Qed.

Lemma moment_app : forall v0 h h' v c, moment v0 h v c -> moment v0 (h ++ h') v c.
Proof. intros v0 h h' v c (h1 & h2 & -> & ->). exists h1, (h2 ++ h'). split; [rewrite <- app_assoc; reflexivity | reflexivity]. Qed.

Lemma after_snoc : forall p h e, after p (h ++ [e]) = happen (after p h) e.
Proof. intros; unfold after; rewrite fold_left_app; reflexivity. Qed.

Lemma cached_in : forall c l k, cached c l = Some k -> In (c, k) l.
Proof. intros c l k; induction l as [|[c' k'] l IH]; simpl; [discriminate |]. destruct (cred_dec c' c) as [-> | N]; [intros [= ->]; left; reflexivity | intros H; right; apply IH; exact H]. Qed.

Lemma firstn_in : forall (A : Type) n (l : list A) x, In x (firstn n l) -> In x l.
Proof. intros A n; induction n as [|n IH]; intros [|a l] x H; simpl in H; try contradiction; destruct H as [-> | H]; [left; reflexivity | right; apply IH; exact H]. Qed.

(** What every process keeps true. *)
Definition sound (v0 : variables) (h : list event) (p : process) : Prop :=
  forall c k, In (c, k) (cache p) -> (exists v, moment v0 h v c /\ made_for v c k) /\ (client_id k < made p)%nat.

Lemma sound_after : forall v0 h, sound v0 h (after (fresh v0) h).
Proof.
  intros v0 h; induction h as [|e h IH] using rev_ind; [intros c k [] |].
  rewrite after_snoc. destruct e as [v | c]; simpl.
  - intros c k Hk. destruct (IH c k Hk) as [(w & M & F) L]. split; [exists w; split; [apply moment_app; exact M | exact F] | exact L].
  - set (p := after (fresh v0) h) in *. unfold get_client. destruct (cached c (cache p)) as [k|] eqn:E; simpl.
    + intros c' k' [[= <- <-] | H].
      * apply cached_in in E. destruct (IH c k E) as [(w & M & F) L]. split; [exists w; split; [apply moment_app; exact M | exact F] | exact L].
      * unfold uncache in H. apply filter_In in H. destruct H as [H _]. destruct (IH c' k' H) as [(w & M & F) L]. split; [exists w; split; [apply moment_app; exact M | exact F] | exact L].
    + destruct (make_client (made p) (vars p) c) as [k|] eqn:Mk; simpl.
      * intros c' k' H. destruct H as [[= <- <-] | H].
        -- apply make_made_for in Mk. destruct Mk as [F Id]. split; [| rewrite Id; simpl; lia].
           exists (vars p); split; [| exact F]. exists h, []. split; [reflexivity |]. unfold p; rewrite vars_after; reflexivity.
        -- apply (firstn_in _ 4) in H. destruct (IH c' k' H) as [(w & M & F) L]. split; [exists w; split; [apply moment_app; exact M | exact F] | simpl; lia].
      * intros c' k' H. destruct (IH c' k' H) as [(w & M & F) L]. split; [exists w; split; [apply moment_app; exact M | exact F] | exact L].
Qed.

(** Whatever happened before, a client that is returned was made for the credentials asked for, with the variables of
    a moment at which the same credentials were asked for; it is complete enough to log in. *)
Theorem C77_client : forall v0 h c k, snd (get_client (after (fresh v0) h) c) = Some k ->
  exists v, moment v0 (h ++ [Ask c]) v c /\ made_for v c k.
Proof.
  intros v0 h c k H. pose proof (sound_after v0 h) as S. set (p := after (fresh v0) h) in *.
  unfold get_client in H. destruct (cached c (cache p)) as [k'|] eqn:E.
  - simpl in H. injection H as <-. apply cached_in in E. destruct (S c k' E) as [(v & M & F) _].
    exists v; split; [apply moment_app; exact M | exact F].
  - destruct (make_client (made p) (vars p) c) as [k'|] eqn:Mk; [| discriminate]. simpl in H. injection H as <-.
    exists (vars p). split; [| apply (make_made_for _ _ _ _ Mk)]. exists h, []. split; [reflexivity |].
    unfold p; rewrite vars_after; reflexivity.
Qed.

(** Credentials that leave nothing to the environment give the same client whatever the variables are. *)
Theorem C77_explicit : forall v0 h c k u p pr e, username c = Some u -> password c = Some p -> project c = Some pr -> environment c = Some e ->
  snd (get_client (after (fresh v0) h) c) = Some k ->
  client_username k = u /\ client_password k = p /\ client_project k = pr /\ client_token k = token c /\
  (client_env k = "preprod"%string <-> e = "preprod"%string) /\ (client_env k = "dev"%string <-> e = "dev"%string).
Proof.
  intros v0 h c k u p pr e Eu Ep Epr Ee H. destruct (C77_client v0 h c k H) as (v & _ & F).
  unfold made_for in F. rewrite Eu, Ep, Epr, Ee in F. destruct F as (F1 & F2 & F3 & F4 & _ & F6).
  do 4 (split; [assumption |]).
  destruct F6 as [[-> ->] | [[-> ->] | (N1 & N2 & ->)]]; split; split; intros; try reflexivity; try discriminate; contradiction.
Qed.

(** A refusal leaves no trace: once the variables are set, the same call succeeds. *)
Theorem C77_refusal : forall p c, snd (get_client p c) = None -> fst (get_client p c) = p.
Proof.
  intros p c; unfold get_client. destruct (cached c (cache p)); [discriminate |]. destruct (make_client (made p) (vars p) c); [discriminate | reflexivity].
Qed.

(** Asking again at once gives the same object. *)
Theorem C77_again : forall p c k, snd (get_client p c) = Some k -> snd (get_client (fst (get_client p c)) c) = Some k.
Proof.
  intros p c k. unfold get_client at 1 3. destruct (cached c (cache p)) as [k'|] eqn:E; simpl.
  - intros [= <-]. unfold get_client; simpl. destruct (cred_dec c c); [reflexivity | contradiction].
  - destruct (make_client (made p) (vars p) c) as [k'|] eqn:Mk; [| discriminate]. simpl. intros [= <-].
    unfold get_client; simpl. destruct (cred_dec c c); [reflexivity | contradiction].
Qed.

(** Never more than five clients are kept. *)
Lemma uncache_length : forall c l, (length (uncache c l) <= length l)%nat.
Proof. intros c l; unfold uncache; induction l as [|e l IH]; simpl; [lia |]. destruct (cred_dec (fst e) c); simpl; lia. Qed.
Lemma uncache_less : forall c l k, cached c l = Some k -> (length (uncache c l) < length l)%nat.
Proof.
  intros c l k; induction l as [|[c' k'] l IH]; simpl; [discriminate |]. destruct (cred_dec c' c) as [E | N]; simpl.
  - intros _. pose proof (uncache_length c l). lia.
  - intros H. specialize (IH H). apply -> Nat.succ_lt_mono. exact IH.
Qed.
Theorem C77_five : forall v0 h, (length (cache (after (fresh v0) h)) <= 5)%nat.
Proof.
  intros v0 h; induction h as [|e h IH] using rev_ind; [simpl; lia |]. rewrite after_snoc.
  destruct e as [v | c]; simpl; [exact IH |]. set (p := after (fresh v0) h) in *. unfold get_client.
  destruct (cached c (cache p)) as [k|] eqn:E; simpl.
  - apply uncache_less in E. lia.
  - destruct (make_client (made p) (vars p) c); simpl; [| exact IH].
    pose proof (firstn_le_length 4 (cache p)). apply le_n_S. exact H.
Qed.

(** Finding: the variables are read once.  After the user has changed them, the same call returns the client of the
    former account. *)
Definition nobody : credentials := {| username := None; password := None; project := None; environment := None; token := None |}.
Definition account (u : string) : variables := {| v_username := Some u; v_password := Some "pw"%string; v_project := Some "pr"%string; v_environment := None |}.
Theorem C77_variables_refuted : exists k, snd (get_client (after (fresh (account "alice")) [Ask nobody; SetVariables (account "bob")]) nobody) = Some k /\
  client_username k = "alice"%string.
Proof. eexists; split; reflexivity. Qed.

(** Finding: any other name of an environment means production, without an error. *)
Theorem C77_environment_refuted : exists c k, environment c = Some "perprod"%string /\
  snd (get_client (fresh (account "alice")) c) = Some k /\ client_env k = "prod"%string.
Proof.
  exists {| username := None; password := None; project := None; environment := Some "perprod"%string; token := None |}.
  eexists; split; [reflexivity | split; reflexivity].
Qed.

Example refused_then_served :
  snd (get_client (fresh {| v_username := None; v_password := None; v_project := None; v_environment := None |}) nobody) = None /\
  exists k, snd (get_client (after (fresh {| v_username := None; v_password := None; v_project := None; v_environment := None |}) [Ask nobody; SetVariables (account "bob")]) nobody) = Some k /\ client_username k = "bob"%string.
Proof. split; [reflexivity |]. eexists; split; reflexivity. Qed.

Print Assumptions C77_result.
Print Assumptions C77_time.
Print Assumptions C77_late_refuted.
Print Assumptions C77_values.
Print Assumptions C77_submit.
Print Assumptions C77_client.
Print Assumptions C77_five.
