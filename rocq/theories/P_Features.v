(** C37: the support arrays partition the qubits. *)
From Coq Require Import List Arith Bool Lia.
From Verif Require Import M_Features.
Import ListNotations.

(** ** Specification *)
(** [parts] splits the qubits 0..n-1 into consecutive parts: read one after the other they are 0, 1, ..., n-1. *)
Definition in_order_partition (n : nat) (parts : list (list nat)) : Prop := concat parts = seq 0 n.
Definition balanced (parts : list (list nat)) : Prop := forall a b, In a parts -> In b parts -> length a <= S (length b).

Lemma firstn_add {A} (n k : nat) (l : list A) : firstn n l ++ firstn k (skipn n l) = firstn (n + k) l.
Proof. revert l. induction n as [|n IH]; intros l; [reflexivity|]. destruct l as [|x l]; simpl; [destruct k; reflexivity|f_equal; apply IH]. Qed.
Lemma skipn_plus {A} (a b : nat) (l : list A) : skipn b (skipn a l) = skipn (a + b) l.
Proof. revert l. induction a as [|a IH]; intros l; [reflexivity|]. destruct l as [|x l]; simpl; [destruct b; reflexivity|apply IH]. Qed.
Lemma cuts_concat {A} (l : list A) : forall sizes acc, concat (map (slice l) (cuts acc sizes)) = firstn (list_sum sizes) (skipn acc l).
Proof.
  induction sizes as [|s sizes IH]; intros acc; [reflexivity|]. cbn [cuts map concat]. rewrite IH. unfold slice. cbn [fst snd]. replace (acc + s - acc) with s by lia.
  rewrite <- skipn_plus, firstn_add. reflexivity.
Qed.
Lemma sum_repeat a n : list_sum (repeat a n) = n * a.
Proof. induction n as [|n IH]; [reflexivity|]. change (list_sum (repeat a (S n))) with (a + list_sum (repeat a n)). rewrite IH. reflexivity. Qed.
Lemma sum_app a b : list_sum (a ++ b) = list_sum a + list_sum b. Proof. apply list_sum_app. Qed.
Lemma sizes_sum n k : k <> 0 -> list_sum (section_sizes n k) = n.
Proof.
  intros H. unfold section_sizes. rewrite sum_app, !sum_repeat. pose proof (Nat.div_mod n k H). pose proof (Nat.mod_upper_bound n k H).
  set (q := n / k) in *. set (r := n mod k) in *. nia.
Qed.
Lemma cuts_lengths {A} (l : list A) : forall sizes acc, acc + list_sum sizes <= length l -> map (@length A) (map (slice l) (cuts acc sizes)) = sizes.
Proof.
  induction sizes as [|s sizes IH]; intros acc H; [reflexivity|]. change (list_sum (s :: sizes)) with (s + list_sum sizes) in H. cbn [cuts map]. rewrite IH by lia. f_equal.
  unfold slice. cbn [fst snd]. rewrite firstn_length, skipn_length. lia.
Qed.

(** Parallel: [k] parts, in order, covering every qubit exactly once, sizes differing by at most one (none empty). *)
Theorem C37_support_arrays : forall n k, 0 < k -> k <= n -> exists parts, create_support_arrays n k Parallel = Some parts /\
  length parts = k /\ in_order_partition n parts /\ balanced parts /\ (forall p, In p parts -> p <> []).
Proof.
  intros n k Hk Hn. unfold create_support_arrays. destruct (Nat.leb_spec k n); [|lia]. unfold array_split. destruct (Nat.eqb_spec k 0); [lia|]. rewrite seq_length.
  eexists. split; [reflexivity|]. set (parts := map _ _).
  assert (E : map (@length nat) parts = section_sizes n k) by (apply cuts_lengths; rewrite sizes_sum by lia; rewrite seq_length; lia).
  assert (SZ : forall s, In s (section_sizes n k) -> s = n / k \/ s = S (n / k)).
  { intros s H1. unfold section_sizes in H1. apply in_app_or in H1 as [H1|H1]; apply repeat_spec in H1; auto. }
  assert (P : forall p, In p parts -> length p = n / k \/ length p = S (n / k)) by (intros p H1; apply SZ; rewrite <- E; apply in_map, H1).
  split; [|split; [|split]].
  - rewrite <- (map_length (@length nat) parts), E. unfold section_sizes. rewrite app_length, !repeat_length. pose proof (Nat.mod_upper_bound n k). lia.
  - unfold in_order_partition, parts. rewrite cuts_concat, sizes_sum by lia. simpl skipn. rewrite <- (seq_length n 0) at 1. apply firstn_all.
  - intros a b Ha Hb. pose proof (P a Ha). pose proof (P b Hb). lia.
  - intros p Hp ->. pose proof (Nat.div_str_pos n k ltac:(lia)). pose proof (P [] Hp). simpl in *. lia.
Qed.
(** Every qubit is assigned to exactly one feature (a restatement by position). *)
Theorem C37_exactly_one : forall n k parts q, create_support_arrays n k Parallel = Some parts -> q < n ->
  exists! i, exists p, nth_error parts i = Some p /\ In q p.
Proof.
  intros n k parts q H Hq. assert (C : concat parts = seq 0 n /\ length parts = k).
  { destruct k as [|k]; [simpl in H; destruct (0 <=? n); discriminate|]. destruct (le_lt_dec (S k) n) as [L|L].
    - destruct (C37_support_arrays n (S k)) as (p & E & Lp & C & _); [lia|exact L|]. rewrite H in E. injection E as <-. auto.
    - unfold create_support_arrays in H. destruct (Nat.leb_spec (S k) n); [lia|discriminate]. }
  destruct C as [C _]. assert (N : NoDup (concat parts)) by (rewrite C; apply seq_NoDup). assert (I : In q (concat parts)) by (rewrite C; apply in_seq; lia). clear H C Hq.
  revert N I. induction parts as [|p parts IH]; intros N I; [destruct I|]. cbn [concat] in *. apply in_app_or in I as [I|I].
  - exists 0. split; [exists p; auto|]. intros [|j] (p' & E & I'); [reflexivity|]. exfalso. simpl in E.
    assert (I2 : In q (concat parts)) by (apply in_concat; exists p'; split; [eapply nth_error_In, E|exact I']).
    clear -N I I2. induction p as [|x p IHp]; [destruct I|]. simpl in N. inversion N as [|? ? N1 N2]; subst. destruct I as [->|I]; [apply N1, in_or_app; right; exact I2|]. apply IHp; assumption.
  - assert (N2 : NoDup (concat parts)) by (clear -N; induction p as [|x p IHp]; [exact N|inversion N; subst; auto]).
    destruct (IH N2 I) as (i & (p' & E & I') & U). exists (S i). split; [exists p'; auto|]. intros [|j] (p2 & E2 & I2).
    + exfalso. simpl in E2. injection E2 as ->. clear -N I I2. induction p2 as [|x p IHp]; [destruct I2|]. simpl in N. inversion N as [|? ? N1 N2]; subst. destruct I2 as [->|I2]; [apply N1, in_or_app; right; exact I|]. apply IHp; assumption.
    + f_equal. apply U. exists p2. auto.
Qed.
(** Series: every feature gets all qubits. *)
Theorem C37_series : forall n k, exists parts, create_support_arrays n k Series = Some parts /\ length parts = k /\ forall p, In p parts -> p = seq 0 n.
Proof. intros n k. eexists. split; [reflexivity|]. split; [rewrite map_length; apply seq_length|]. intros p H. apply in_map_iff in H as (i & <- & _). reflexivity. Qed.
(** Errors: too many features, no feature, unknown strategy. *)
Theorem C37_errors : forall n k, n < k \/ k = 0 -> create_support_arrays n k Parallel = None.
Proof. intros n k H. unfold create_support_arrays. destruct (Nat.leb_spec k n) as [L|L]; [|reflexivity]. destruct H as [H| ->]; [lia|]. reflexivity. Qed.

(** The other routine, get_fm_qubits: a partition exactly when the number of features divides the number of qubits. *)
Definition fm_parts (n k : nat) : list (list nat) := map (fun i => match get_fm_qubits Parallel i n k with Some l => l | None => [] end) (seq 0 k).
Lemma fm_concat per : forall k a, concat (map (fun i => seq (i * per) ((i + 1) * per - i * per)) (seq a k)) = seq (a * per) (k * per).
Proof.
  induction k as [|k IH]; intros a; [reflexivity|]. cbn [seq map concat]. rewrite IH. replace ((a + 1) * per - a * per) with per by nia. replace (S k * per) with (per + k * per) by lia.
  rewrite seq_app. f_equal. f_equal. lia.
Qed.
Theorem C37_fm_qubits_partial : forall n k, 0 < k -> (in_order_partition n (fm_parts n k) <-> n mod k = 0).
Proof.
  intros n k Hk. unfold in_order_partition, fm_parts, get_fm_qubits. destruct (Nat.eqb_spec k 0); [lia|]. rewrite fm_concat. simpl. pose proof (Nat.div_mod n k ltac:(lia)) as D. pose proof (Nat.mod_upper_bound n k ltac:(lia)). split.
  - intros E. apply (f_equal (@length nat)) in E. rewrite !seq_length in E. lia.
  - intros M. f_equal. lia.
Qed.
(** In general the features get equal parts, and exactly the last n mod k qubits belong to none. *)
Theorem C37_fm_qubits : forall n k, 0 < k -> in_order_partition (n - n mod k) (fm_parts n k) /\ length (fm_parts n k) = k /\ forall p, In p (fm_parts n k) -> length p = n / k.
Proof.
  intros n k Hk. unfold in_order_partition, fm_parts, get_fm_qubits. destruct (Nat.eqb_spec k 0); [lia|]. rewrite fm_concat. pose proof (Nat.div_mod n k ltac:(lia)) as D.
  split; [cbn [Nat.mul]; f_equal; lia|]. split; [rewrite map_length; apply seq_length|]. intros p H. apply in_map_iff in H as (i & <- & _). rewrite seq_length. nia.
Qed.
(** Finding: otherwise the last qubit belongs to no feature. *)
Theorem C37_fm_qubits_refuted : forall n k i l, 0 < k -> n mod k <> 0 -> i < k -> get_fm_qubits Parallel i n k = Some l -> ~ In (n - 1) l.
Proof.
  intros n k i l Hk M Hi E. unfold get_fm_qubits in E. destruct (Nat.eqb_spec k 0); [lia|]. injection E as <-. rewrite in_seq. pose proof (Nat.div_mod n k ltac:(lia)) as D. set (q := n / k) in *. intros [_ H].
  assert ((i + 1) * q <= k * q) by (apply Nat.mul_le_mono_r; lia). lia.
Qed.

Example C37_witness : create_support_arrays 7 3 Parallel = Some [[0; 1; 2]; [3; 4]; [5; 6]] /\ get_fm_qubits Parallel 2 7 3 = Some [4; 5].
Proof. split; reflexivity. Qed.
Print Assumptions C37_support_arrays.
Print Assumptions C37_exactly_one.
Print Assumptions C37_series.
Print Assumptions C37_errors.
Print Assumptions C37_fm_qubits.
Print Assumptions C37_fm_qubits_partial.
Print Assumptions C37_fm_qubits_refuted.
