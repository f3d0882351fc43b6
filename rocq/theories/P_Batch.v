(** C45: bitstring counters and batches of parameters. *)
From Coq Require Import ZArith List Arith Bool Reals Lia Permutation.
From Verif Require Import M_Basis P_Basis.
Import ListNotations.

(** ** Specification: the string of a measured row. *)
Definition row_string (e : endian) (row : list bool) : list ch :=
  let s := map (fun b : bool => if b then C1 else C0) row in match e with Big => s | Little => rev s end.
Definition ch_dec : forall a b : ch, {a = b} + {a <> b}. Proof. decide equality. Defined.
Definition str_dec : forall a b : list ch, {a = b} + {a <> b} := list_eq_dec ch_dec.
(** Number of rows of the sample that read [s]. *)
Definition occurrences (e : endian) (sample : list (list bool)) (s : list ch) : nat := count_occ str_dec (map (row_string e) sample) s.

Lemma row_int_dval row : Z.of_nat (row_int row) = dval (map (fun b : bool => if b then C1 else C0) row).
Proof.
  induction row as [|b row IH]; [reflexivity|]. cbn [row_int map dval]. rewrite Nat2Z.inj_add, Nat2Z.inj_mul, Nat2Z.inj_pow, IH, map_length.
  destruct b; reflexivity.
Qed.
Lemma row_digits row : Forall is_digit (map (fun b : bool => if b then C1 else C0) row).
Proof. induction row as [|[|] row IH]; constructor; auto; discriminate. Qed.
Lemma row_spells e row : spells (row_string e row) (length row) (Z.of_nat (row_int row)) e.
Proof.
  assert (B : spells (map (fun b : bool => if b then C1 else C0) row) (length row) (Z.of_nat (row_int row)) Big).
  { rewrite row_int_dval. destruct (spells_dval (map (fun b : bool => if b then C1 else C0) row)) as [H|H]; [|exfalso; apply H, row_digits].
    rewrite map_length in H. exact H. }
  destruct e; [exact B|apply spells_rev, B].
Qed.
Lemma row_bound row : (0 <= Z.of_nat (row_int row) < 2 ^ Z.of_nat (length row))%Z.
Proof. rewrite row_int_dval. rewrite <- (map_length (fun b : bool => if b then C1 else C0) row). apply dval_bound. Qed.

Lemma row_itb e n row : (1 <= n)%nat -> length row = n -> int_to_basis (Z.of_nat (row_int row)) (Some (Z.of_nat n)) e = Some (row_string e row).
Proof.
  intros Hn <-. destruct (itb_spec _ _ e Hn (row_bound row)) as (s & E & S). rewrite E. f_equal. eapply spells_unique; [exact S|apply row_spells].
Qed.

Lemma combine_seq {A} (l : list A) d : forall s, combine (seq s (length l)) l = map (fun i => (i, nth (i - s) l d)) (seq s (length l)).
Proof.
  induction l as [|x l IH]; intros s; [reflexivity|]. cbn [length seq combine map]. rewrite Nat.sub_diag. f_equal. rewrite IH.
  apply map_ext_in. intros i Hi. apply in_seq in Hi. replace (i - s)%nat with (S (i - S s)) by lia. reflexivity.
Qed.
Lemma filter_map {A B} (f : B -> bool) (g : A -> B) l : filter f (map g l) = map g (filter (fun x => f (g x)) l).
Proof. induction l as [|x l IH]; [reflexivity|]. simpl. destruct (f (g x)); simpl; rewrite IH; reflexivity. Qed.
Lemma list_max_in l x : In x l -> (x <= list_max l)%nat.
Proof. induction l as [|y l IH]; [intros []|]. cbn [list_max fold_right]. fold (list_max l). intros [->|H]; [lia|]. specialize (IH H). lia. Qed.
Lemma filter_none {A} (f : A -> bool) l : (forall x, In x l -> f x = false) -> filter f l = [].
Proof. induction l as [|x l IH]; intros H; [reflexivity|]. simpl. rewrite H by (left; reflexivity). apply IH. intros; apply H; right; assumption. Qed.

(** The counter as a list of (k, number of k) for the observed integers k in increasing order. *)
Lemma bincount_spec l N : (forall k, In k l -> k < N)%nat ->
  filter (fun kc => Nat.ltb 0 (snd kc)) (combine (seq 0 (length (bincount l))) (bincount l)) =
  map (fun k => (k, count_occ Nat.eq_dec l k)) (filter (fun k => Nat.ltb 0 (count_occ Nat.eq_dec l k)) (seq 0 N)).
Proof.
  intros HN. destruct l as [|x l].
  - simpl. rewrite filter_none; auto.
  - set (l' := x :: l) in *. unfold bincount. replace (match l' with [] => [] | _ :: _ => map (fun k => count_occ Nat.eq_dec l' k) (seq 0 (S (list_max l'))) end)
      with (map (fun k => count_occ Nat.eq_dec l' k) (seq 0 (S (list_max l')))) by reflexivity.
    set (M := S (list_max l')). rewrite map_length, seq_length.
    assert (E : combine (seq 0 M) (map (fun k => count_occ Nat.eq_dec l' k) (seq 0 M)) = map (fun k => (k, count_occ Nat.eq_dec l' k)) (seq 0 M)).
    { induction (seq 0 M) as [|a r IH]; [reflexivity|]. simpl. f_equal. exact IH. }
    rewrite E, filter_map. f_equal. cbn [snd].
    assert (HM : (M <= N)%nat).
    { unfold M. assert (exists y, In y l' /\ list_max l' = y) as (y & Hy & ->).
      { clear. unfold l'. clear l'. revert x. induction l as [|z l IH]; intros x.
        - exists x. split; [left; reflexivity|]. simpl. lia.
        - destruct (IH z) as (y & Hy & E). cbn [list_max fold_right] in *. fold (list_max l) in *.
          destruct (Nat.max_spec x (Nat.max z (list_max l))) as [[_ ->]|[_ ->]].
          + exists y. split; [right; exact Hy|exact E].
          + exists x. split; [left; reflexivity|reflexivity]. }
      apply HN. exact Hy. }
    replace N with (M + (N - M))%nat by lia. rewrite seq_app, filter_app, (filter_none _ (seq (0 + M) (N - M))), app_nil_r; [reflexivity|].
    intros k Hk. apply in_seq in Hk. apply Nat.ltb_ge. destruct (count_occ Nat.eq_dec l' k) eqn:Ec; [lia|]. exfalso.
    assert (In k l') as Hin by (apply (count_occ_In Nat.eq_dec); lia). apply list_max_in in Hin. unfold M in Hk. lia.
Qed.

Lemma count_occ_inj {A B} (da : forall x y : A, {x = y} + {x <> y}) (db : forall x y : B, {x = y} + {x <> y}) (f : A -> nat) (g : A -> B) l a
  (dn : forall x y : nat, {x = y} + {x <> y}) :
  (forall x, In x (a :: l) -> f x = f a <-> g x = g a) -> count_occ dn (map f l) (f a) = count_occ db (map g l) (g a).
Proof.
  intros H. induction l as [|x l IH]; [reflexivity|]. simpl. rewrite IH by (intros y [Hy|Hy]; apply H; [left|right; right]; assumption).
  pose proof (H x (or_intror (or_introl eq_refl))) as Hx.
  destruct (dn (f x) (f a)) as [E1|E1], (db (g x) (g a)) as [E2|E2]; try reflexivity; exfalso; tauto.
Qed.

Lemma nodup_map_inj {A B} (f : A -> B) l : (forall x y, In x l -> In y l -> f x = f y -> x = y) -> NoDup l -> NoDup (map f l).
Proof.
  intros H Hn. induction Hn as [|x l Hx Hn IH]; [constructor|]. simpl. constructor.
  - intros Hin. apply in_map_iff in Hin as (y & E & Hy). apply Hx. assert (x = y) as -> by (apply H; [left; reflexivity|right; exact Hy|symmetry; exact E]). exact Hy.
  - apply IH. intros; apply H; auto; right; auto.
Qed.
Lemma count_total (l : list nat) N : (forall k, In k l -> k < N)%nat ->
  fold_right (fun k a => count_occ Nat.eq_dec l k + a)%nat 0%nat (seq 0 N) = length l.
Proof.
  intros H.
  assert (A : forall ks, fold_right (fun k a => count_occ Nat.eq_dec [] k + a)%nat 0%nat ks = 0%nat) by (induction ks; auto).
  assert (S1 : forall x l ks, fold_right (fun k a => count_occ Nat.eq_dec (x :: l) k + a)%nat 0%nat ks =
     (count_occ Nat.eq_dec ks x + fold_right (fun k a => count_occ Nat.eq_dec l k + a)%nat 0%nat ks)%nat).
  { intros x l' ks. induction ks as [|k ks IH]; [reflexivity|]. cbn [fold_right]. rewrite IH. cbn [count_occ].
    destruct (Nat.eq_dec x k), (Nat.eq_dec k x); try congruence; lia. }
  induction l as [|x l IH]; [apply A|]. rewrite S1, IH by (intros; apply H; right; assumption).
  cbn [length]. f_equal. assert (C : count_occ Nat.eq_dec (seq 0 N) x = 1%nat); [|lia].
  apply NoDup_count_occ'; [apply seq_NoDup|]. apply in_seq. specialize (H x (or_introl eq_refl)). lia.
Qed.

(** ** count_bitstrings counts every measured row once, under the string it reads. *)
Theorem C45_count_bitstrings : forall n sample e, (1 <= n)%nat -> (forall row, In row sample -> length row = n) ->
  exists c, count_bitstrings n sample e = map (fun sc => (Some (fst sc), snd sc)) c /\ NoDup (map fst c) /\
    (forall s k, In (s, k) c <-> (k = occurrences e sample s /\ 0 < k)%nat) /\
    fold_right (fun sc a => (snd sc + a)%nat) 0%nat c = length sample.
Proof.
  intros n sample e Hn Hrow. set (l := map row_int sample).
  assert (HN : forall k, In k l -> (k < 2 ^ n)%nat).
  { intros k Hk. apply in_map_iff in Hk as (row & <- & Hin). pose proof (row_bound row) as B. rewrite (Hrow _ Hin) in B.
    apply Nat2Z.inj_lt. rewrite Nat2Z.inj_pow. apply B. }
  unfold count_bitstrings. fold l. rewrite (bincount_spec l (2 ^ n) HN). set (ks := filter _ (seq 0 (2 ^ n))).
  assert (Hks : forall k, In k ks <-> In k l).
  { intros k. unfold ks. rewrite filter_In, in_seq, Nat.ltb_lt. split.
    - intros [_ H]. apply (count_occ_In Nat.eq_dec). lia.
    - intros H. pose proof (HN k H). split; [lia|]. apply (count_occ_In Nat.eq_dec) in H. lia. }
  set (g := fun k => match int_to_basis (Z.of_nat k) (Some (Z.of_nat n)) e with Some s => s | None => [] end).
  assert (Hg : forall row, In row sample -> g (row_int row) = row_string e row).
  { intros row Hin. unfold g. rewrite row_itb; auto. }
  assert (Hinj : forall r1 r2, In r1 sample -> In r2 sample -> row_int r1 = row_int r2 <-> row_string e r1 = row_string e r2).
  { intros r1 r2 H1 H2. split; intros E.
    - rewrite <- !Hg, E by assumption. reflexivity.
    - pose proof (row_spells e r1) as S1. pose proof (row_spells e r2) as S2. rewrite E in S1. rewrite (Hrow _ H1) in S1. rewrite (Hrow _ H2) in S2.
      pose proof (row_bound r1) as B1. pose proof (row_bound r2) as B2. rewrite (Hrow _ H1) in B1. rewrite (Hrow _ H2) in B2.
      pose proof (spells_inj _ _ _ _ _ B1 B2 S1 S2). lia. }
  assert (Hocc : forall row, In row sample -> count_occ Nat.eq_dec l (row_int row) = occurrences e sample (row_string e row)).
  { intros row Hin. unfold l, occurrences. apply count_occ_inj; [apply (list_eq_dec bool_dec)|]. intros x [Hx|Hx]; [subst; tauto|]. apply Hinj; assumption. }
  exists (map (fun k => (g k, count_occ Nat.eq_dec l k)) ks). split; [|split; [|split]].
  - rewrite !map_map. apply map_ext_in. intros k Hk. apply Hks in Hk. apply in_map_iff in Hk as (row & <- & Hin). cbn [fst snd].
    rewrite Hg, row_itb by auto. reflexivity.
  - rewrite map_map. cbn [fst]. apply nodup_map_inj; [|apply NoDup_filter, seq_NoDup].
    intros x y Hx Hy E. apply Hks in Hx, Hy. apply in_map_iff in Hx as (r1 & <- & H1). apply in_map_iff in Hy as (r2 & <- & H2).
    rewrite !Hg in E by assumption. apply Hinj; assumption.
  - intros s k. rewrite in_map_iff. split.
    + intros (k' & E & Hk). injection E as <- <-. apply Hks in Hk as Hk'. apply in_map_iff in Hk' as (row & <- & Hin). rewrite Hg by assumption.
      split; [apply Hocc, Hin|]. apply Hks in Hk. apply (count_occ_In Nat.eq_dec) in Hk. lia.
    + intros [-> Hpos]. unfold occurrences in Hpos. assert (Hin : In s (map (row_string e) sample)) by (apply (count_occ_In str_dec); lia).
      apply in_map_iff in Hin as (row & <- & Hin). exists (row_int row). rewrite Hg, Hocc by assumption. split; [reflexivity|].
      apply Hks. apply in_map, Hin.
  - rewrite <- (map_length row_int sample). fold l. rewrite <- (count_total l (2 ^ n) HN). unfold ks. clear Hks. clear ks.
    induction (seq 0 (2 ^ n)) as [|k r IH]; [reflexivity|]. cbn [filter fold_right]. destruct (Nat.ltb_spec 0 (count_occ Nat.eq_dec l k)); cbn [map fold_right snd]; rewrite IH; lia.
Qed.

(** ** to_list_of_dicts *)
(** The value an entry stands for in the gate: a scalar, or a one-element row holding that scalar. *)
Definition means {X} (o : option (pent X)) (x : X) : Prop := o = Some (EScalar x) \/ o = Some (ERow [x]).

Theorem C45_to_list_of_dicts : forall (X K : Type) (d : list (K * list X)) m, d <> [] -> (1 <= m)%nat ->
  (forall k l, In (k, l) d -> length l = m \/ length l = 1%nat) -> (exists k l, In (k, l) d /\ length l = m) ->
  exists ds, to_list_of_dicts (map (fun kl => (fst kl, PTensor (snd kl))) d) = Some (inl ds) /\ length ds = m /\
    forall i, (i < m)%nat -> exists di, nth_error ds i = Some di /\ map fst di = map fst d /\
      Forall2 (fun kl ke => fst kl = fst ke /\
        (length (snd kl) = m -> exists x, nth_error (snd kl) i = Some x /\ means (snd ke) x) /\
        (length (snd kl) = 1%nat -> exists x, snd kl = [x] /\ means (snd ke) x)) d di.
Proof.
  intros X K d m Hne Hm Hsz (k0 & l0 & Hin0 & Hl0).
  assert (T : tensors (map (fun kl : K * list X => (fst kl, PTensor (snd kl))) d) = d).
  { clear. induction d as [|[k l] d IH]; [reflexivity|]. simpl. f_equal. exact IH. }
  assert (Hmax : list_max (map (fun kv : K * list X => length (snd kv)) d) = m).
  { apply Nat.le_antisymm.
    - apply list_max_le, Forall_forall. intros x Hx. apply in_map_iff in Hx as ([k l] & <- & Hin). specialize (Hsz k l Hin). simpl. lia.
    - rewrite <- Hl0. apply list_max_in. change (length l0) with (length (snd (k0, l0))). apply in_map with (f := fun kv : K * list X => length (snd kv)). exact Hin0. }
  exists (map (fun i => map (fun kv => (fst kv, index_batched m (snd kv) i)) d) (seq 0 m)).
  split; [|split].
  - unfold to_list_of_dicts. rewrite T. destruct d as [|a d]; [congruence|]. cbn [map] in *. rewrite Hmax. reflexivity.
  - rewrite map_length, seq_length. reflexivity.
  - intros i Hi. eexists. split.
    + rewrite (map_nth_error _ i (seq 0 m) (d := i)); [reflexivity|]. rewrite nth_error_nth' with (d := 0%nat) by (rewrite seq_length; exact Hi). rewrite seq_nth by exact Hi. reflexivity.
    + split; [rewrite map_map; reflexivity|]. clear Hin0 Hl0 T Hmax Hne. induction d as [|[k l] d IH]; [constructor|]. simpl. constructor.
      * cbn [fst snd]. split; [reflexivity|]. split; intros HL.
        -- unfold index_batched. rewrite HL, Nat.eqb_refl. destruct (nth_error l i) as [x|] eqn:E.
           ++ exists x. split; [reflexivity|]. left. reflexivity.
           ++ apply nth_error_None in E. lia.
        -- destruct l as [|x [|y l]]; simpl in HL; try lia. exists x. split; [reflexivity|]. unfold index_batched. simpl length.
           destruct (Nat.eqb_spec 1 m) as [E|E]; [|right; reflexivity]. subst m. assert (i = 0%nat) by lia. subst i. left. reflexivity.
      * apply IH. intros k' l' H. apply (Hsz k' l'). right. exact H.
Qed.

(** Sizes that do not match are accepted: every dictionary then gets the whole tensor. *)
Theorem C45_wrong_sizes_refuted : exists (d : list (nat * pval nat)) ds, to_list_of_dicts d = Some (inl ds) /\
  length ds = 4%nat /\ nth_error ds 0 = Some [(0%nat, Some (ERow [7; 8]%nat)); (1%nat, Some (EScalar 1%nat))].
Proof. exists [(0, PTensor [7; 8]); (1, PTensor [1; 2; 3; 4])]%nat. eexists. split; [reflexivity|]. split; reflexivity. Qed.
(** Values that are not tensors silently disappear. *)
Theorem C45_plain_values_refuted : exists (d : list (nat * pval nat)) ds, to_list_of_dicts d = Some (inl ds) /\
  map fst d = [0; 1]%nat /\ ds = [[(1%nat, Some (EScalar 5%nat))]].
Proof. exists [(0, POther); (1, PTensor [5])]%nat. eexists. split; [reflexivity|]. split; reflexivity. Qed.

(** infer_batchsize is the largest tensor size (1 without tensors). *)
Theorem C45_infer_batchsize : forall (X K : Type) (d : list (K * pval X)),
  (forall k l, In (k, PTensor l) d -> (length l <= infer_batchsize (Some d))%nat) /\
  ((exists k l, In (k, PTensor l) d /\ length l = infer_batchsize (Some d)) \/ ((forall k l, ~ In (k, PTensor l) d) /\ infer_batchsize (Some d) = 1%nat)).
Proof.
  intros X K d.
  assert (HT : forall k l, In (k, l) (tensors d) <-> In (k, PTensor l) d).
  { intros k l. unfold tensors. rewrite in_flat_map. split.
    - intros ([k' [l'|]] & Hin & H); [|destruct H]. destruct H as [H|[]]. injection H as <- <-. exact Hin.
    - intros H. exists (k, PTensor l). split; [exact H|left; reflexivity]. }
  assert (E : infer_batchsize (Some d) = match tensors d with [] => 1%nat | ts => list_max (map (fun kv => length (snd kv)) ts) end) by (destruct d; reflexivity).
  rewrite E. destruct (tensors d) as [|a ts] eqn:Et.
  - split; [intros k l H; apply HT in H; destruct H|]. right. split; [|reflexivity]. intros k l H. apply HT in H. destruct H.
  - set (f := fun kv : K * list X => length (snd kv)). split.
    + intros k l H. apply HT in H. apply list_max_in. apply (in_map f) in H. exact H.
    + left. assert (exists y, In y (map f (a :: ts)) /\ list_max (map f (a :: ts)) = y) as (y & Hy & Ey).
      { clear. cbn [map]. generalize (f a) as x, (map f ts) as l. intros x l; revert x. induction l as [|z l IH]; intros x.
        - exists x. split; [left; reflexivity|]. simpl. lia.
        - destruct (IH z) as (y & Hy & E). cbn [list_max fold_right] in *. fold (list_max l) in *.
          destruct (Nat.max_spec x (Nat.max z (list_max l))) as [[_ ->]|[_ ->]].
          + exists y. split; [right; exact Hy|exact E].
          + exists x. split; [left; reflexivity|reflexivity]. }
      apply in_map_iff in Hy as ([k l] & <- & Hin). exists k, l. split; [apply HT, Hin|]. symmetry. exact Ey.
Qed.

(** A batch of states is accepted together with a batch of values exactly when one is single or both have the same size. *)
Theorem C45_validate : forall bs bv, (1 <= bs)%nat -> (1 <= bv)%nat -> validate_values_and_state bs bv = true <-> bs = 1%nat \/ bv = 1%nat \/ bs = bv.
Proof.
  intros bs bv H1 H2. unfold validate_values_and_state.
  destruct (Nat.eqb_spec bs bv), (Nat.ltb_spec 1 bv), (Nat.ltb_spec 1 bs); simpl; split; try discriminate; try reflexivity; intros; try lia.
Qed.

Example C45_witness : count_bitstrings 2 [[true; false]; [false; false]; [true; false]] Little =
  [(Some [C0; C0], 1%nat); (Some [C0; C1], 2%nat)] /\
  to_list_of_dicts [(0, PTensor [7]); (1, PTensor [1; 2])]%nat =
  Some (inl [[(0, Some (ERow [7])); (1, Some (EScalar 1))]; [(0, Some (ERow [7])); (1, Some (EScalar 2))]])%nat.
Proof. split; reflexivity. Qed.

Print Assumptions C45_count_bitstrings.
Print Assumptions C45_to_list_of_dicts.
Print Assumptions C45_wrong_sizes_refuted.
Print Assumptions C45_plain_values_refuted.
Print Assumptions C45_infer_batchsize.
Print Assumptions C45_validate.
