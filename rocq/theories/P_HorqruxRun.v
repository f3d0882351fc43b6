(** C71: running, measuring and sampling on the JAX backend (horqrux). *)
From Coq Require Import String Reals List Arith Bool Lia Lra FunctionalExtensionality ZArith.
From Coquelicot Require Import Coquelicot.
From Coq Require Import List.
From Verif Require Import S_Sets S_Ops M_QubitSupport M_Block S_Den L_Ops L_Den L_Loc S_PSR S_State L_Inner M_BlockOps M_Basis P_Basis P_Batch
  L_Tensor S_Transpile P_Dagger P_Invert P_Backend P_Overlap M_Transpile L_Transpile M_Tensor M_Fill M_Convert L_Convert P_Convert P_Flatten M_Horqrux P_Horqrux.
Import ListNotations.
Open Scope R_scope.
Open Scope C_scope.

(** * Arrays *)
Lemma jstate_vec n v : jstate n v = vec_state n v. Proof. reflexivity. Qed.
Lemma vol_twos n : vol (repeat 2%nat n) = (2 ^ n)%nat.
Proof. induction n as [|n IH]; [reflexivity|]. cbn [repeat vol fold_right]. unfold vol in IH. rewrite IH. cbn [Nat.pow]. lia. Qed.
Lemma shape_eqb_refl s : shape_eqb s s = true.
Proof. unfold shape_eqb. destruct (list_eq_dec Nat.eq_dec s s); congruence. Qed.
Lemma jarray_length n psi : length (jarray n psi) = (2 ^ n)%nat.
Proof. unfold jarray. rewrite map_length. rewrite <- (map_length bits_to_nat), map_bits_seq, seq_length. reflexivity. Qed.
Lemma jarray_nth n psi r : length r = n -> nth (bits_to_nat r) (jarray n psi) (RtoC 0) = amps n psi r.
Proof.
  intros H. unfold jarray.
  assert (L : length (bits n) = (2 ^ n)%nat) by (rewrite <- (map_length bits_to_nat), map_bits_seq, seq_length; reflexivity).
  assert (K : (bits_to_nat r < 2 ^ n)%nat) by (rewrite <- H; apply bits_to_nat_lt).
  rewrite (nth_indep _ (RtoC 0) (amps n psi [])) by (rewrite map_length, L; exact K). rewrite map_nth.
  f_equal. pose proof (f_equal (fun l => nth (bits_to_nat r) l 0%nat) (map_bits_seq n)) as E. cbn beta in E.
  rewrite (nth_indep _ 0%nat (bits_to_nat [])) in E by (rewrite map_length, L; exact K). rewrite map_nth, seq_nth in E by exact K. cbn [Nat.add] in E.
  assert (LE : length (nth (bits_to_nat r) (bits n) []) = n) by (apply bits_length, nth_In; rewrite L; exact K).
  apply bits_to_nat_inj; [congruence|exact E].
Qed.
Lemma row_int_bits r : row_int r = bits_to_nat r.
Proof. induction r as [|b r IH]; [reflexivity|]. cbn [row_int bits_to_nat]. rewrite IH. destruct b; reflexivity. Qed.
Lemma reversed_bits n r : (1 <= n)%nat -> length r = n -> reversed_index n (bits_to_nat r) = Some (bits_to_nat (rev r)).
Proof.
  intros Hn Hr. pose proof (row_itb Big n r Hn Hr) as E. pose proof (row_bound r) as B. rewrite row_int_bits in *. rewrite Hr in B.
  unfold int_to_basis in E. destruct (Z.ltb_spec (Z.of_nat n) 0); [lia|]. destruct (Z.leb_spec (Z.of_nat (bits_to_nat r)) (2 ^ Z.of_nat n - 1)); [|lia].
  rewrite Nat2Z.id in E. assert (E' : py_format (Z.of_nat (bits_to_nat r)) n = row_string Big r) by (injection E; auto). unfold reversed_index. rewrite E'.
  assert (Ne : row_string Big r <> []) by (destruct r; [cbn in Hr; lia|discriminate]).
  destruct (basis_value (row_string Big r) Little Ne (row_digits r)) as (k & Ek & Bk & Sk). cbn [basis_to_int] in Ek. unfold omap. rewrite Ek. cbn [obind]. f_equal.
  pose proof (row_spells Little (rev r)) as S2. rewrite row_int_bits, rev_length in S2.
  assert (ES : row_string Little (rev r) = row_string Big r) by (unfold row_string; rewrite <- map_rev, rev_involutive; reflexivity).
  rewrite ES in S2. pose proof (row_bound (rev r)) as B2. rewrite row_int_bits, rev_length in B2.
  assert (L : length (row_string Big r) = length r) by apply map_length. rewrite L in Bk, Sk.
  pose proof (spells_inj _ _ _ _ _ Bk B2 Sk S2). lia.
Qed.

(** * run *)
(** The initial state of a call: |0...0>, or the state vector given as a row of 2^n amplitudes. *)
Definition starts_from (n : nat) (state : option jarr) (v0 : list C) : Prop :=
  match state with None => v0 = zero_vec n | Some s => jshape s = [1%nat; (2 ^ n)%nat] /\ jdata s = v0 /\ length v0 = (2 ^ n)%nat end.
(** The bit string to which an entry of the result belongs. *)
Definition read_as (e : M_Basis.endian) (r : list bool) : list bool := match e with Big => r | Little => rev r end.

Section Run.
  Context {K X : Type}.
  Variables (n : nat) (circuit : list (K * X) -> option Op).
  Hypothesis Hn : (1 <= n)%nat.

  Lemma started state v0 : starts_from n state v0 ->
    match state with None => Some (zero_state n) | Some s => horqify s end = Some (mkJ (repeat 2%nat n) v0) /\ length v0 = (2 ^ n)%nat.
  Proof.
    intros H. destruct state as [s|]; cbn [starts_from] in H.
    - destruct H as (H1 & H2 & H3). unfold horqify. rewrite H1, Nat.log2_pow2 by lia. unfold jreshape. rewrite vol_twos, H2, H3, Nat.eqb_refl. split; reflexivity.
    - subst v0. split; [reflexivity|]. unfold zero_vec. cbn [length]. rewrite repeat_length. pose proof (Nat.pow_nonzero 2 n). lia.
  Qed.

  Lemma run_raw_hq values rho b state v0 : (forall q, In q (qubits b) -> (q < n)%nat) -> circuit values = Some (den rho b) -> starts_from n state v0 ->
    hq_run n circuit values state Big true false = Some (mkJ (repeat 2%nat n) (run_vec n (den rho b) v0)).
  Proof.
    intros Hq Hc Hs. destruct (started state v0 Hs) as (E & L). unfold hq_run. rewrite E. cbn [obind]. rewrite Hc. cbn [obind].
    unfold native_apply. cbn [jshape jdata]. rewrite shape_eqb_refl. cbn [obind]. f_equal. f_equal.
    apply (vec_eq n); [apply jarray_length| |].
    - unfold run_vec. rewrite map_length. rewrite <- (map_length bits_to_nat), map_bits_seq, seq_length. reflexivity.
    - intros r Hr. rewrite jarray_nth by exact Hr. rewrite run_vec_amps by assumption. reflexivity.
  Qed.
  Lemma run_vec_length A v : length (run_vec n A v) = (2 ^ n)%nat.
  Proof. unfold run_vec. rewrite map_length. rewrite <- (map_length bits_to_nat), map_bits_seq, seq_length. reflexivity. Qed.

  Lemma permuted_spec a : length (jdata a) = (2 ^ n)%nat ->
    exists a', permuted n a = Some a' /\ jshape a' = [1%nat; (2 ^ n)%nat] /\ length (jdata a') = (2 ^ n)%nat /\
      forall r, length r = n -> nth (bits_to_nat r) (jdata a') (RtoC 0) = nth (bits_to_nat (rev r)) (jdata a) (RtoC 0).
  Proof.
    intros L. unfold permuted, jreshape. cbn [vol fold_right]. rewrite Nat.mul_1_r, Nat.mul_1_l, L, Nat.eqb_refl. cbn [obind].
    rewrite <- map_bits_seq, map_map.
    assert (E : map (fun r => reversed_index n (bits_to_nat r)) (bits n) = map (fun r => Some (bits_to_nat (rev r))) (bits n)).
    { apply map_ext_in. intros r Hr. apply bits_length in Hr. apply reversed_bits; assumption. }
    rewrite E, osequence_Some. cbn [obind jdata]. eexists. split; [reflexivity|]. split; [reflexivity|]. cbn [jdata]. rewrite map_map, map_length.
    assert (LB : length (bits n) = (2 ^ n)%nat) by (rewrite <- (map_length bits_to_nat), map_bits_seq, seq_length; reflexivity).
    split; [exact LB|]. intros r Hr.
    pose proof (jarray_nth n (fun x => nth (bits_to_nat (rev (map x (seq 0 n)))) (jdata a) (RtoC 0)) r Hr) as J. unfold jarray, amps in J.
    rewrite bits_of_upds in J by exact Hr. rewrite <- J. f_equal. apply map_ext_in. intros c Hc. apply bits_length in Hc. rewrite bits_of_upds by exact Hc. reflexivity.
  Qed.
End Run.

Theorem C71_run : forall {K X} n (circuit : list (K * X) -> option Op) values rho b state v0 e, (1 <= n)%nat -> (forall q, In q (qubits b) -> (q < n)%nat) ->
  circuit values = Some (den rho b) -> starts_from n state v0 ->
  exists a, hq_run n circuit values state e true true = Some a /\ jshape a = [(2 ^ n)%nat] /\ length (jdata a) = (2 ^ n)%nat /\
    forall r, length r = n -> nth (bits_to_nat r) (jdata a) (RtoC 0) = amps n (den rho b (vec_state n v0)) (read_as e r).
Proof.
  intros K X n circuit values rho b state v0 e Hn Hq Hc Hs. pose proof (run_raw_hq n circuit Hn values rho b state v0 Hq Hc Hs) as R.
  destruct (started n Hn state v0 Hs) as (E & L). unfold hq_run in R |- *. rewrite E in R |- *. cbn [obind] in R |- *. rewrite Hc in R |- *. cbn [obind] in R |- *.
  unfold native_apply in R |- *. cbn [jshape jdata] in R |- *. rewrite shape_eqb_refl in R |- *. cbn [obind] in R |- *. injection R as R.
  destruct e; cbn [obind].
  - eexists. split; [reflexivity|]. unfold unhorqify. cbn [jdata jshape]. rewrite jarray_length. split; [reflexivity|]. split; [reflexivity|].
    intros r Hr. apply jarray_nth, Hr.
  - destruct (permuted_spec n Hn (mkJ (repeat 2%nat n) (jarray n (den rho b (jstate n v0))))) as (a & Ea & Sa & La & Na); [apply jarray_length|].
    rewrite Ea. cbn [obind]. eexists. split; [reflexivity|]. unfold unhorqify. cbn [jdata jshape]. rewrite La. split; [reflexivity|]. split; [reflexivity|].
    intros r Hr. rewrite Na by exact Hr. cbn [jdata read_as]. apply jarray_nth. rewrite rev_length. exact Hr.
Qed.

(** Only one initial state can be given: a batch of several states is refused. *)
Theorem C71_state_batch : forall {K X} n (circuit : list (K * X) -> option Op) values s B e h, jshape s = [B; (2 ^ n)%nat] -> length (jdata s) = (B * 2 ^ n)%nat -> B <> 1%nat ->
  hq_run n circuit values (Some s) e true h = None.
Proof.
  intros K X n circuit values s B e h Hs Hl HB. unfold hq_run, horqify. rewrite Hs, Nat.log2_pow2 by lia. unfold jreshape. rewrite vol_twos, Hl.
  pose proof (Nat.pow_nonzero 2 n). destruct (Nat.eqb_spec (2 ^ n) (B * 2 ^ n)); [nia|reflexivity].
Qed.

(** * expectation *)
(** The values of sample [i]: those given once are used for every sample. *)
Definition row_at {K X} (d : X) (i : nat) (values : list (K * list X)) : list (K * X) :=
  map (fun kv => (fst kv, nth (if Nat.eqb (length (snd kv)) 1 then 0%nat else i) (snd kv) d)) values.
(** Every parameter has one value or [B] values, and some parameter has [B]. *)
Definition batch_of {K X} (B : nat) (values : list (K * list X)) : Prop :=
  (exists kv, In kv values /\ length (snd kv) = B) /\ forall kv, In kv values -> length (snd kv) = 1%nat \/ length (snd kv) = B.

Lemma batch_max {K X} B (values : list (K * list X)) : (1 <= B)%nat -> batch_of B values -> list_max (map (fun kv => length (snd kv)) values) = B.
Proof.
  intros HB ((kv & Hin & HL) & H). apply Nat.le_antisymm.
  - apply list_max_le, Forall_forall. intros x Hx. apply in_map_iff in Hx as (y & <- & Hy). destruct (H y Hy); lia.
  - pose proof (list_max_le (map (fun kv => length (snd kv)) values) (list_max (map (fun kv => length (snd kv)) values))) as (A & _). specialize (A (Nat.le_refl _)).
    rewrite Forall_forall in A. apply A. rewrite <- HL. apply (in_map (fun kv => length (snd kv))), Hin.
Qed.
Lemma flat_one {A} (x : A) m : flat_map (fun x => repeat x m) [x] = repeat x m.
Proof. cbn [flat_map]. apply app_nil_r. Qed.
Lemma nth_error_repeat {A} (x : A) m i : (i < m)%nat -> nth_error (repeat x m) i = Some x.
Proof. revert i. induction m as [|m IH]; intros i H; [lia|]. destruct i as [|i]; [reflexivity|]. cbn [repeat nth_error]. apply IH. lia. Qed.

Lemma uniform_row {K X} (d : X) B (values : list (K * list X)) i : (1 <= B)%nat -> batch_of B values -> (i < B)%nat ->
  sample_at i (uniform_batchsize values) = Some (row_at d i values) /\ forall kv, In kv (uniform_batchsize values) -> length (snd kv) = B.
Proof.
  intros HB Hb Hi. unfold uniform_batchsize. rewrite (batch_max B values HB Hb). destruct Hb as (_ & H). split.
  - unfold sample_at, row_at. rewrite map_map. cbn [fst snd].
    rewrite (map_ext_in _ (fun kv => Some (fst kv, nth (if Nat.eqb (length (snd kv)) 1 then 0%nat else i) (snd kv) d))); [apply osequence_Some|].
    intros [k v] Hin. specialize (H _ Hin). cbn [fst snd] in *. destruct (Nat.eqb_spec (length v) B) as [E|E].
    + rewrite (nth_error_nth' v d) by lia. unfold omap. cbn [obind]. destruct (Nat.eqb_spec (length v) 1); [|reflexivity]. replace i with 0%nat by lia. reflexivity.
    + destruct H as [H|H]; [|lia]. destruct v as [|x [|]]; [discriminate H| |discriminate H]. rewrite flat_one, nth_error_repeat by exact Hi. reflexivity.
  - intros kv Hin. apply in_map_iff in Hin as ([k v] & <- & Hin). specialize (H _ Hin). cbn [fst snd] in *. destruct (Nat.eqb_spec (length v) B) as [E|E]; [exact E|].
    destruct H as [H|H]; [|lia]. destruct v as [|x [|]]; [discriminate H| |discriminate H]. rewrite flat_one. apply repeat_length.
Qed.

Lemma vmap_rows {K X A} (d : X) B (values : list (K * list X)) (f : list (K * X) -> option A) (g : list (K * X) -> A) : (1 <= B)%nat -> batch_of B values ->
  (forall i, (i < B)%nat -> f (row_at d i values) = Some (g (row_at d i values))) ->
  vmap f (uniform_batchsize values) = Some (map (fun i => g (row_at d i values)) (seq 0 B)).
Proof.
  intros HB Hb Hf. destruct (uniform_row d B values 0 HB Hb) as (_ & HL); [lia|].
  assert (Ne : uniform_batchsize values <> []).
  { destruct Hb as ((kv & Hin & _) & _). destruct values; [destruct Hin|discriminate]. }
  unfold vmap. destruct (uniform_batchsize values) as [|[k v] u] eqn:EU; [destruct (Ne eq_refl)|]. rewrite <- EU in *.
  assert (Hv : length v = B) by (apply (HL (k, v)); rewrite EU; left; reflexivity).
  assert (Ft : forallb (fun kv : K * list X => Nat.eqb (length (snd kv)) (length v)) (uniform_batchsize values) = true).
  { apply forallb_forall. intros kv Hin. rewrite (HL kv Hin), Hv. apply Nat.eqb_refl. }
  rewrite Ft, Hv.
  rewrite (map_ext_in _ (fun i => Some (g (row_at d i values)))); [apply osequence_Some|].
  intros i Hi. apply in_seq in Hi. destruct (uniform_row d B values i HB Hb) as (E & _); [lia|]. rewrite E. cbn [obind]. apply Hf. lia.
Qed.

(** What a call must return: for every sample the expectation values of the observables in the state the circuit prepares. *)
Definition expected_row (n : nat) (b : block) (os : list block) (v0 : list C) (rho : env) : list R :=
  map (fun o => fst (expval n (den rho b (vec_state n v0)) (den rho o))) os.

Lemma native_exp n O v : native_expectation n O (mkJ (repeat 2%nat n) v) = Some (fst (expval n (vec_state n v) O)).
Proof. unfold native_expectation. cbn [jshape jdata]. rewrite shape_eqb_refl, jstate_vec. reflexivity. Qed.

Lemma F2_length {A B} {P : A -> B -> Prop} {l l'} : Forall2 P l l' -> length l = length l'.
Proof. intros F. induction F as [|x y l l' H F IH]; [reflexivity|]. cbn [length]. rewrite IH. reflexivity. Qed.
Section Exp.
  Context {K X : Type}.
  Variables (n : nat) (circuit : list (K * X) -> option Op) (obs : list (list (K * X) -> option Op)) (rho_of : list (K * X) -> env) (b : block) (os : list block).
  Hypothesis Hn : (1 <= n)%nat.
  Hypothesis Hq : forall q, In q (qubits b) -> (q < n)%nat.
  Hypothesis Ho : forall o q, In o os -> In q (qubits o) -> (q < n)%nat.
  Hypothesis Hc : forall v, circuit v = Some (den (rho_of v) b).
  Hypothesis HO : Forall2 (fun O o => forall v, O v = Some (den (rho_of v) o)) obs os.

  Lemma one_sample values state v0 : starts_from n state v0 ->
    hq_expectation1 n circuit obs state Big values = Some (expected_row n b os v0 (rho_of values)).
  Proof.
    intros Hs. unfold hq_expectation1. rewrite (run_raw_hq n circuit Hn values (rho_of values) b state v0 Hq (Hc values) Hs). cbn [obind].
    unfold expected_row. revert Ho. induction HO as [|O o obs' os' HOo F IH]; intros Ho; [reflexivity|].
    cbn [map osequence]. rewrite HOo. cbn [obind]. rewrite native_exp. cbn [obind]. rewrite IH; [|exact F|intros o' q Hi; apply Ho; right; exact Hi]. cbn [obind omap].
    rewrite (expval_amps n (rho_of values) o (vec_state n (run_vec n (den (rho_of values) b) v0)) (den (rho_of values) b (vec_state n v0))).
    - reflexivity.
    - intros q. apply Ho. left. reflexivity.
    - intros r Hr. rewrite amps_vec by exact Hr. apply run_vec_amps; assumption.
  Qed.

  Lemma obs_len : length obs = length os. Proof. exact (F2_length HO). Qed.
  Lemma row_len v0 rho : length (expected_row n b os v0 rho) = length os. Proof. apply map_length. Qed.

  Lemma expectation_batch {M N T} (d : X) values B state v0 (measurement : M) (noise : N) (mitigation : T) : starts_from n state v0 ->
    (2 <= B)%nat -> batch_of B values -> os <> [] ->
    hq_expectation n circuit obs values state measurement noise mitigation Big =
      Some (Table (map (fun i => expected_row n b os v0 (rho_of (row_at d i values))) (seq 0 B))).
  Proof.
    intros Hs HB Hb Ne. unfold hq_expectation.
    assert (NV : exists kv values', values = kv :: values') by (destruct Hb as ((kv & Hin & _) & _); destruct values; [destruct Hin|eauto]).
    destruct NV as (kv & values' & EV). rewrite EV at 1. rewrite (batch_max B values) by (assumption || lia).
    destruct (Nat.ltb_spec 1 B); [|lia].
    rewrite (vmap_rows d B values _ (fun v => expected_row n b os v0 (rho_of v))); [|lia|exact Hb|intros i Hi; apply one_sample; exact Hs]. cbn [obind].
    assert (V : Nat.ltb 1 (vol [B; length obs]) = true).
    { apply Nat.ltb_lt. rewrite obs_len. cbn [vol fold_right]. destruct os; [congruence|]. cbn [length]. nia. }
    rewrite V. destruct B as [|[|B]]; [lia|lia|]. cbn [seq map]. destruct (expected_row n b os v0 (rho_of (row_at d 0 values))) as [|x [|]]; reflexivity.
  Qed.

  Lemma expectation_one {M N T} (d : X) values state v0 (measurement : M) (noise : N) (mitigation : T) : starts_from n state v0 ->
    batch_of 1 values -> os <> [] ->
    hq_expectation n circuit obs values state measurement noise mitigation Big =
      Some (match os with
            | [o] => Single (fst (expval n (den (rho_of (row_at d 0 values)) b (vec_state n v0)) (den (rho_of (row_at d 0 values)) o)))
            | _ => Table [expected_row n b os v0 (rho_of (row_at d 0 values))]
            end).
  Proof.
    intros Hs Hb Ne. unfold hq_expectation.
    assert (NV : exists kv values', values = kv :: values') by (destruct Hb as ((kv & Hin & _) & _); destruct values; [destruct Hin|eauto]).
    destruct NV as (kv & values' & EV). rewrite EV at 1. rewrite (batch_max 1 values) by (assumption || lia). change (Nat.ltb 1 1) with false.
    assert (ES : sample_at 0 values = Some (row_at d 0 values)).
    { unfold sample_at, row_at. rewrite (map_ext_in _ (fun kv => Some (fst kv, nth (if Nat.eqb (length (snd kv)) 1 then 0%nat else 0%nat) (snd kv) d))); [apply osequence_Some|].
      intros [k v] Hin. destruct Hb as (_ & H). specialize (H _ Hin). cbn [fst snd] in *. rewrite (nth_error_nth' v d) by lia. destruct (Nat.eqb (length v) 1); reflexivity. }
    rewrite ES. cbn [obind]. rewrite (one_sample _ _ _ Hs). unfold omap. cbn [obind].
    pose proof obs_len as OL. destruct os as [|o [|o' os']]; [congruence|reflexivity|].
    cbn [expected_row map]. assert (V : Nat.ltb 1 (vol [1%nat; length obs]) = true) by (apply Nat.ltb_lt; rewrite OL; cbn [vol fold_right length]; lia).
    rewrite V. reflexivity.
  Qed.
End Exp.

Theorem C71_expectation_batch : forall {K X M N T} n circuit obs (rho_of : list (K * X) -> env) b os (d : X) values B state v0 (measurement : M) (noise : N) (mitigation : T),
  (1 <= n)%nat -> (forall q, In q (qubits b) -> (q < n)%nat) -> (forall o q, In o os -> In q (qubits o) -> (q < n)%nat) ->
  (forall v, circuit v = Some (den (rho_of v) b)) -> Forall2 (fun O o => forall v, O v = Some (den (rho_of v) o)) obs os -> starts_from n state v0 ->
  (2 <= B)%nat -> batch_of B values -> os <> [] ->
  hq_expectation n circuit obs values state measurement noise mitigation Big =
    Some (Table (map (fun i => expected_row n b os v0 (rho_of (row_at d i values))) (seq 0 B))).
Proof. intros. apply expectation_batch; assumption. Qed.

Theorem C71_expectation_single : forall {K X M N T} n circuit obs (rho_of : list (K * X) -> env) b os (d : X) values state v0 (measurement : M) (noise : N) (mitigation : T),
  (1 <= n)%nat -> (forall q, In q (qubits b) -> (q < n)%nat) -> (forall o q, In o os -> In q (qubits o) -> (q < n)%nat) ->
  (forall v, circuit v = Some (den (rho_of v) b)) -> Forall2 (fun O o => forall v, O v = Some (den (rho_of v) o)) obs os -> starts_from n state v0 ->
  batch_of 1 values -> os <> [] ->
  hq_expectation n circuit obs values state measurement noise mitigation Big =
    Some (match os with
          | [o] => Single (fst (expval n (den (rho_of (row_at d 0 values)) b (vec_state n v0)) (den (rho_of (row_at d 0 values)) o)))
          | _ => Table [expected_row n b os v0 (rho_of (row_at d 0 values))]
          end).
Proof. intros. apply expectation_one; assumption. Qed.

(** * sample *)
(** The call returns one counter: [n_shots] outcomes in all, each bit string with the number of times it was drawn, and the outcomes are drawn with
    the probabilities |amplitude|^2 of the state the circuit prepares. *)
Theorem C71_sample : forall {K X N T} n (circuit : list (K * X) -> option Op) draw values rho b n_shots state v0 (noise : N) (mitigation : T) e,
  (1 <= n)%nat -> (forall q, In q (qubits b) -> (q < n)%nat) -> circuit values = Some (den rho b) -> starts_from n state v0 -> (1 <= n_shots)%nat ->
  (forall p s, length p = (2 ^ n)%nat -> length (draw p s) = s /\ forall k, In k (draw p s) -> (k < 2 ^ n)%nat) ->
  exists p shots c, (forall r, length r = n -> nth (bits_to_nat r) p 0%R = prob n (den rho b (vec_state n v0)) r) /\
    draw p n_shots = map bits_to_nat shots /\ length shots = n_shots /\ (forall r, In r shots -> length r = n) /\
    hq_sample n circuit draw values n_shots state noise mitigation e = Some (map (fun sc => (Some (fst sc), snd sc)) c) /\ NoDup (map fst c) /\
    (forall s k, In (s, k) c <-> (k = occurrences e shots s /\ 0 < k)%nat) /\ fold_right (fun sc a => (snd sc + a)%nat) 0%nat c = n_shots.
Proof.
  intros K X N T n circuit draw values rho b n_shots state v0 noise mitigation e Hn Hq Hc Hs H1 HD.
  unfold hq_sample. destruct (Nat.ltb_spec n_shots 1); [lia|]. rewrite (run_raw_hq n circuit Hn values rho b state v0 Hq Hc Hs). cbn [obind jdata].
  set (p := map (fun z => Cmod (z * z)) (run_vec n (den rho b) v0)).
  assert (Lp : length p = (2 ^ n)%nat) by (unfold p; rewrite map_length; apply run_vec_length).
  destruct (HD p n_shots Lp) as (DL & DB).
  assert (EX : exists shots, draw p n_shots = map bits_to_nat shots /\ forall r, In r shots -> length r = n).
  { clear -DB. induction (draw p n_shots) as [|k l IH]; [exists []; split; [reflexivity|intros r []]|].
    destruct IH as (s & E & F); [intros j Hj; apply DB; right; exact Hj|]. destruct (bits_to_nat_of_lt n k) as (r & Lr & Er); [apply DB; left; reflexivity|].
    exists (r :: s). cbn [map]. rewrite <- E, Er. split; [reflexivity|]. intros r' [<-|Hr]; [exact Lr|exact (F r' Hr)]. }
  destruct EX as (shots & ED & FL).
  assert (SL : length shots = n_shots) by (rewrite <- DL, ED, map_length; reflexivity).
  destruct (C45_count_bitstrings n shots e Hn FL) as (c & Ec & Nc & Sc & Tc).
  exists p, shots, c. split; [|split; [exact ED|split; [exact SL|split; [exact FL|split; [|split; [exact Nc|split; [exact Sc|congruence]]]]]]].
  - intros r Hr. unfold p. assert (K0 : (bits_to_nat r < 2 ^ n)%nat) by (rewrite <- Hr; apply bits_to_nat_lt).
    rewrite (nth_indep _ 0%R (Cmod (RtoC 0 * RtoC 0))) by (rewrite map_length, run_vec_length; exact K0). rewrite (map_nth (fun z => Cmod (z * z))).
    rewrite run_vec_amps by assumption. rewrite Cmod_mult. unfold prob. set (z := amps n (den rho b (vec_state n v0)) r).
    replace (Cmod z * Cmod z)%R with (Cmod z ^ 2)%R by ring. unfold Cmod. apply pow2_sqrt. nra.
  - rewrite <- Ec. unfold count_bitstrings. rewrite ED. rewrite <- (map_ext row_int bits_to_nat row_int_bits shots). reflexivity.
Qed.

(** * What is refused *)
(** Gates with a conversion.  The generator of an evolution, when it has no parameters, is a combination of Pauli operators and projectors. *)
Definition accepted (b : block) : Prop :=
  match b with
  | BPrim p _ => match p with PX | PY | PZ | PH | PI_ => True | _ => False end
  | BRot r _ _ => r <> RPhase
  | BSwap _ _ => True
  | BCtrl cs (BPrim PX _) => length cs = 1%nat
  | BCtrl cs (BPrim PZ _) => True
  | BPCtrl cs (BRot r _ _) => r <> RPhase
  | BEvo gen _ => bparams gen = [] -> j_leaves gen
  | _ => False
  end.
Lemma oseq_some {A B} (f : A -> option B) l ys : osequence (map f l) = Some ys -> forall x, In x l -> exists y, f x = Some y.
Proof.
  revert ys. induction l as [|a l IH]; intros ys E x H; [destruct H|]. cbn [map osequence] in E. destruct (f a) as [y|] eqn:Ea; [|discriminate]. cbn [obind] in E.
  destruct (osequence (map f l)) as [ys'|] eqn:El; [|discriminate]. destruct H as [<-|H]; [exists y; exact Ea|]. exact (IH ys' eq_refl x H).
Qed.
Lemma hconv_accepts si g b : forall o, hconv si g b = Some o -> forall x, In x (gates b) -> accepted x.
Proof.
  induction b as [k bs IH|b e IH|b Hk Hsc] using skel_ind; intros o E x Hx.
  - assert (Eo : exists os, osequence (map (hconv si g) bs) = Some os).
    { destruct k; cbn [comp hconv] in E; unfold omap in E; destruct (osequence (map (hconv si g) bs)) as [os|]; try discriminate; eauto. }
    destruct Eo as (os & Eo). rewrite gates_comp in Hx. apply in_flat_map in Hx as (y & Hy & Hx). destruct (oseq_some _ _ _ Eo y Hy) as (oy & Ey).
    rewrite Forall_forall in IH. exact (IH y Hy oy Ey x Hx).
  - cbn [hconv] in E. unfold omap in E. destruct (hconv si g b) as [o'|]; [|discriminate]. exact (IH o' eq_refl x Hx).
  - assert (EX : x = b) by (destruct b; simpl in *; try discriminate; try tauto; try (destruct Hx as [<-|[]]; reflexivity)). subst x. clear Hx.
    destruct b as [p q|k br qs|r q e|q a b c|a b|c a b|cs b|cs b|b e|bs|bs|bs|m qs|gen t]; cbn [hconv accepted kind_of is_scale] in *; try discriminate; try exact I; try (exfalso; apply Hsc; exact I).
    + destruct p; try discriminate; exact I.
    + destruct r; discriminate.
    + destruct cs as [|c [|c' cs]]; destruct b as [p| | | | | | | | | | | | |]; try discriminate; destruct p; try discriminate; try exact I; reflexivity.
    + destruct b as [| |r| | | | | | | | | | |]; try discriminate. destruct r; discriminate.
    + intros HP. unfold h_evolution in E. assert (P : is_parametric gen = false) by (unfold is_parametric; rewrite HP; reflexivity). rewrite P in E.
      destruct (b2j (fun _ => 0%R) (sup si (BEvo gen t)) gen) as [M|] eqn:EM; [|discriminate]. exact (C71_generator_refuses _ _ _ _ EM).
Qed.
(** A circuit with any other gate (S, T, PHASE, Toffoli, CSWAP, U, CPHASE, N or a projector as a gate, ...) is refused when it is converted. *)
Theorem C71_refuses : forall set_iter gate_params b op, set_order set_iter -> krons_ok b -> no_empty_chain b ->
  hq_circuit set_iter gate_params b = Some op \/ hq_observable set_iter gate_params b = Some op -> forall x, In x (gates b) -> accepted x.
Proof.
  intros si g b op Hs K NE H x Hx.
  destruct (scale_prims_ok si Hs b None K NE) as (y & Ey & K1 & _ & G1 & _).
  destruct (C06_flatten si [KChain; KKron; KAdd] y Hs K1) as (z & Ez & _ & G2 & _ & K2 & _).
  unfold hq_circuit, h_passes, hq_observable in H. rewrite Ey in H. cbn [obind] in H. rewrite Ez in H. cbn [obind] in H. rewrite (rebuild_id si Hs z K2) in H. cbn [obind] in H.
  assert (E : hconv si g z = Some op) by (destruct H; assumption). apply (hconv_accepts si g z op E). rewrite G2, G1. exact Hx.
Qed.

(** Parameters whose numbers of values differ and are not one are refused. *)
Theorem C71_batch_sizes : forall {K X M N T} n (circuit : list (K * X) -> option Op) obs values state (measurement : M) (noise : N) (mitigation : T) e kv,
  let B := list_max (map (fun kv => length (snd kv)) values) in
  (2 <= B)%nat -> In kv values -> length (snd kv) <> 1%nat -> length (snd kv) <> B ->
  hq_expectation n circuit obs values state measurement noise mitigation e = None.
Proof.
  intros K X M N T n circuit obs values state measurement noise mitigation e kv B HB Hin H1 H2. unfold hq_expectation.
  destruct values as [|kv0 values']; [reflexivity|]. remember (kv0 :: values') as values eqn:EV. fold B. destruct (Nat.ltb_spec 1 B); [|lia].
  assert (V : vmap (hq_expectation1 n circuit obs state e) (uniform_batchsize values) = None); [|rewrite V; reflexivity].
  unfold vmap. destruct (uniform_batchsize values) as [|[k v] u] eqn:EU; [reflexivity|]. rewrite <- EU.
  destruct (forallb (fun kv : K * list X => Nat.eqb (length (snd kv)) (length v)) (uniform_batchsize values)) eqn:F; [exfalso|reflexivity].
  rewrite forallb_forall in F.
  assert (G : forall y, In y values -> (if Nat.eqb (length (snd y)) B then B else length (snd y) * B)%nat = length v).
  { intros y Hy. specialize (F (fst y, if Nat.eqb (length (snd y)) B then snd y else flat_map (fun x => repeat x B) (snd y))). cbn [snd] in F.
    apply Nat.eqb_eq in F; [|unfold uniform_batchsize; fold B; apply (in_map (fun kv => (fst kv, if Nat.eqb (length (snd kv)) B then snd kv else flat_map (fun x => repeat x B) (snd kv))) _ _ Hy)].
    rewrite <- F. destruct (Nat.eqb_spec (length (snd y)) B) as [E|E]; [congruence|]. clear.
    induction (snd y) as [|x l IH]; [reflexivity|]. cbn [flat_map length]. rewrite app_length, repeat_length, <- IH. lia. }
  assert (A : exists y, In y values /\ length (snd y) = B).
  { assert (L : forall l : list nat, (1 <= list_max l)%nat -> In (list_max l) l).
    { induction l as [|a l IH]; cbn [list_max fold_right]; [lia|]. fold (list_max l). intros Hl. destruct (Nat.max_spec a (list_max l)) as [(Hlt & ->)|(Hle & ->)]; [right; apply IH; lia|left; reflexivity]. }
    assert (Hm : In B (map (fun kv => length (snd kv)) values)) by (apply L; fold B; lia). apply in_map_iff in Hm as (y & E & Hy). exists y. split; assumption. }
  destruct A as (y & Hy & EY). pose proof (G y Hy) as G1. rewrite EY, Nat.eqb_refl in G1. pose proof (G kv Hin) as G2.
  destruct (Nat.eqb_spec (length (snd kv)) B); [contradiction|]. rewrite <- G1 in G2. nia.
Qed.

(** * Findings *)
(** A circuit and observables without any parameters have no expectation value on this backend: the batch size is the maximum over no values and the
    call fails (backend.py:142), although running and sampling the same circuit work. *)
Theorem C71_no_parameters_refuted : forall n b os state v0, (1 <= n)%nat -> (forall q, In q (qubits b) -> (q < n)%nat) -> starts_from n state v0 ->
  bparams b = [] ->
  let circuit := fun _ : list (string * R) => Some (den (fun _ => 0%R) b) in
  hq_expectation n circuit (map (fun o _ => Some (den (fun _ => 0%R) o)) os) [] state tt tt tt Big = None /\
  exists a, hq_run n circuit [] state Big true true = Some a.
Proof.
  intros n b os state v0 Hn Hq Hs _ circuit. split; [reflexivity|].
  destruct (C71_run n circuit [] (fun _ => 0%R) b state v0 Big Hn Hq eq_refl Hs) as (a & E & _). exists a. exact E.
Qed.

(** Asking for little-endian expectation values fails: for the conversion the state is reshaped to one row of amplitudes and not reshaped back to one axis
    per qubit, so no observable can be applied to it (backend.py:102-106 with unhorqify_state=False). *)
Theorem C71_little_endian_refuted : forall {M N T} n (circuit : list (string * R) -> option Op) obs values state (measurement : M) (noise : N) (mitigation : T),
  (1 <= n)%nat -> obs <> [] -> hq_expectation n circuit obs values state measurement noise mitigation Little = None.
Proof.
  intros M N T n circuit obs values state measurement noise mitigation Hn Ho.
  assert (F : forall v, hq_expectation1 n circuit obs state Little v = None).
  { intros v. unfold hq_expectation1. destruct (hq_run n circuit v state Little true false) as [s|] eqn:E; [|reflexivity]. cbn [obind].
    assert (S : jshape s = [1%nat; (2 ^ n)%nat]).
    { unfold hq_run in E. destruct (match state with None => Some (zero_state n) | Some s => horqify s end) as [s0|]; [|discriminate]. cbn [obind] in E.
      destruct (circuit v) as [A|]; [|discriminate]. cbn [obind] in E. destruct (native_apply n A s0) as [s1|]; [|discriminate]. cbn [obind] in E.
      unfold permuted in E. destruct (jreshape s1 [1%nat; (2 ^ n)%nat]) as [s2|]; [|discriminate]. cbn [obind] in E.
      destruct (osequence (map (reversed_index n) (seq 0 (2 ^ n)))) as [ind|]; [|discriminate]. cbn [obind] in E. injection E as <-. reflexivity. }
    destruct obs as [|o obs']; [congruence|]. cbn [map osequence]. destruct (o v) as [O|]; [|reflexivity]. cbn [obind]. unfold native_expectation. rewrite S.
    unfold shape_eqb. destruct (list_eq_dec Nat.eq_dec [1%nat; (2 ^ n)%nat] (repeat 2%nat n)) as [e|e]; [|reflexivity].
    destruct n; [lia|]. cbn [repeat] in e. discriminate e. }
  unfold hq_expectation. destruct values as [|kv values']; [reflexivity|]. remember (kv :: values') as values.
  destruct (Nat.ltb 1 (list_max (map (fun kv => length (snd kv)) values))) eqn:EB.
  - assert (V : vmap (hq_expectation1 n circuit obs state Little) (uniform_batchsize values) = None); [|rewrite V; reflexivity].
    unfold vmap. apply Nat.ltb_lt in EB. destruct (uniform_batchsize values) as [|[k v] u] eqn:EU; [reflexivity|]. rewrite <- EU.
    destruct (forallb _ _) eqn:Fb; [|reflexivity]. destruct (length v) as [|m] eqn:EL.
    + (* the sizes after the repetition are not zero *)
      exfalso. rewrite forallb_forall in Fb.
      assert (L : forall l : list nat, (1 <= list_max l)%nat -> In (list_max l) l).
      { induction l as [|a l IH]; cbn [list_max fold_right]; [lia|]. fold (list_max l). intros Hl. destruct (Nat.max_spec a (list_max l)) as [(Hlt & ->)|(Hle & ->)]; [right; apply IH; lia|left; reflexivity]. }
      pose proof (L (map (fun kv => length (snd kv)) values)) as Hm. assert (Hm' : In (list_max (map (fun kv => length (snd kv)) values)) (map (fun kv => length (snd kv)) values)) by (apply Hm; lia).
      apply in_map_iff in Hm' as (y & EY & Hy). set (B := list_max (map (fun kv => length (snd kv)) values)) in *.
      pose proof (in_map (fun kv => (fst kv, if Nat.eqb (length (snd kv)) B then snd kv else flat_map (fun x => repeat x B) (snd kv))) _ _ Hy) as HI.
      specialize (Fb _ HI). cbn [snd] in Fb. rewrite EY, Nat.eqb_refl, EY in Fb. apply Nat.eqb_eq in Fb. lia.
    + cbn [seq map osequence]. destruct (sample_at 0 (uniform_batchsize values)) as [w|]; [|reflexivity]. cbn [obind]. rewrite F. reflexivity.
  - destruct (sample_at 0 values) as [w|]; [|reflexivity]. cbn [obind]. rewrite F. reflexivity.
Qed.

(** In the generator of an evolution a projector |0><1| is used as |1><0| (jax_utils.py:153-156), as in the default backend. *)
Theorem C71_projector_refuted : forall rho, exists M, b2j rho [0%nat] (BProj [false] [true] [0%nat]) = Some M /\
  ent M (bits_to_nat [false]) (bits_to_nat [true]) <> matof [0%nat] (den rho (BProj [false] [true] [0%nat])) [false] [true].
Proof.
  intros rho. eexists. split; [reflexivity|]. apply P_Dagger.C_neq. left. unfold matof, gate, ketbra, ket. simpl. lra.
Qed.

(** * From blocks to expectation values *)
(** Values by name; a name that is not given is not used by the circuit. *)
Definition env_of (v : list (string * R)) : env := fun k => match find (fun kv => String.eqb (fst kv) k) v with Some kv => snd kv | None => 0%R end.

Theorem C71_backend : forall set_iter gate_params n b os values B state v0, set_order set_iter -> (1 <= n)%nat ->
  (forall x, x = b \/ In x os -> krons_ok x /\ no_empty_chain x /\ (forall q, In q (qubits x) -> (q < n)%nat) /\ forall y, In y (gates x) -> hq_gate set_iter y) ->
  starts_from n state v0 -> (2 <= B)%nat -> batch_of B values -> os <> [] ->
  exists op ops, hq_circuit set_iter gate_params b = Some op /\ map (hq_observable set_iter gate_params) os = map Some ops /\
    hq_expectation n (fun v => hden gate_params (env_of v) op) (map (fun o v => hden gate_params (env_of v) o) ops) values state tt tt tt Big =
      Some (Table (map (fun i => expected_row n b os v0 (env_of (row_at 0%R i values))) (seq 0 B))).
Proof.
  intros si g n b os values B state v0 Hs Hn H Hst HB Hb Ne.
  destruct (H b (or_introl eq_refl)) as (K1 & N1 & Q1 & G1). destruct (C71_circuit si g b Hs K1 N1 G1) as (op & E1 & D1).
  assert (HO : exists ops, map (hq_observable si g) os = map Some ops /\ Forall2 (fun q o => forall rho, hden g rho q = Some (den rho o)) ops os).
  { assert (Hx : forall x, In x os -> exists q, hq_observable si g x = Some q /\ forall rho, hden g rho q = Some (den rho x)).
    { intros x Hx. destruct (H x (or_intror Hx)) as (Kx & Nx & Qx & Gx). exact (C71_observable si g x Hs Kx Nx Gx). }
    clear -Hx. induction os as [|o os IH]; [exists []; split; [reflexivity|constructor]|]. destruct (Hx o (or_introl eq_refl)) as (q & E & D).
    destruct IH as (ops & E2 & F); [intros x Hi; apply Hx; right; exact Hi|]. exists (q :: ops). cbn [map]. rewrite E, E2. split; [reflexivity|constructor; assumption]. }
  destruct HO as (ops & E2 & F). exists op, ops. split; [exact E1|]. split; [exact E2|].
  apply (C71_expectation_batch n _ _ env_of b os 0%R values B state v0 tt tt tt); try assumption.
  - intros o q Ho. destruct (H o (or_intror Ho)) as (_ & _ & Q & _). apply Q.
  - intros v. apply D1.
  - clear -F. induction F as [|q o ops os D F IH]; [constructor|]. cbn [map]. constructor; [intros v; apply D|exact IH].
Qed.

(** ** Witnesses *)
Definition w_block : block := BChain [BPrim PH 0; BCtrl [0%nat] (BPrim PX 1); BRot RX_ 1 (EVar "theta")].
Definition w_obs : list block := [BPrim PZ 0; BAdd [BPrim PX 0; BScale (BPrim PZ 1) (EVar "w")]].
Definition w_values : list (string * list R) := [("theta"%string, [1; 2; 3]%R); ("w"%string, [5]%R)].
Example C71_backend_witness : (forall x, x = w_block \/ In x w_obs -> krons_ok x /\ no_empty_chain x /\ (forall q, In q (qubits x) -> (q < 2)%nat) /\ forall y, In y (gates x) -> hq_gate (nodup Nat.eq_dec) y) /\
  starts_from 2 None (zero_vec 2) /\ batch_of 3 w_values /\ row_at 0%R 2 w_values = [("theta"%string, 3%R); ("w"%string, 5%R)].
Proof.
  split; [|split; [reflexivity|split; [split; [exists ("theta"%string, [1; 2; 3]%R); split; [left; reflexivity|reflexivity]|]|reflexivity]]].
  - intros x [->|[<-|[<-|[]]]]; cbn; repeat split; try discriminate; intuition (subst; cbn; try lia; try exact I; try discriminate; auto).
  - intros kv [<-|[<-|[]]]; cbn; auto.
Qed.
Example C71_generator_witness : j_ok [0%nat; 1%nat] (BAdd [BScale (BPrim PZ 0) (EVar "x"); BKron [BPrim PX 0; BPrim (PN true) 1]; BProj [true; false] [true; false] [0%nat; 1%nat]]).
Proof. cbn. repeat split; try discriminate. exists [], []. reflexivity. Qed.
Example C71_state_witness : starts_from 1 (Some (mkJ [1%nat; 2%nat] [RtoC 0; RtoC 1])) [RtoC 0; RtoC 1].
Proof. repeat split; reflexivity. Qed.
Example C71_refuses_witness : forall g op, hq_circuit (nodup Nat.eq_dec) g (BChain [BPrim PH 0; BPrim PT 0]) <> Some op /\ hq_observable (nodup Nat.eq_dec) g (BPrim (PN true) 0) <> Some op.
Proof.
  intros g op. split; intros E.
  - apply (C71_refuses (nodup Nat.eq_dec) g (BChain [BPrim PH 0; BPrim PT 0]) op id_order) with (x := BPrim PT 0%nat); cbn; auto; repeat split; discriminate.
  - apply (C71_refuses (nodup Nat.eq_dec) g (BPrim (PN true) 0) op id_order) with (x := BPrim (PN true) 0%nat); cbn; auto.
Qed.
Example C71_batch_sizes_witness : hq_expectation 1 (fun _ : list (string * R) => Some idop) [fun _ => Some idop] [("a"%string, [1; 2; 3]%R); ("b"%string, [1; 2]%R)] None tt tt tt Big = None.
Proof. apply (C71_batch_sizes 1 _ _ _ _ _ _ _ _ ("b"%string, [1; 2]%R)); cbn; auto; lia. Qed.
Example C71_sample_witness : forall (p : list R) s, length p = (2 ^ 1)%nat -> length (repeat 1%nat s) = s /\ forall k, In k (repeat 1%nat s) -> (k < 2 ^ 1)%nat.
Proof. intros p s _. split; [apply repeat_length|]. intros k Hk. apply repeat_spec in Hk. subst. cbn. lia. Qed.

Print Assumptions C71_generator.
Print Assumptions C71_circuit.
Print Assumptions C71_observable.
Print Assumptions C71_run.
Print Assumptions C71_expectation_batch.
Print Assumptions C71_expectation_single.
Print Assumptions C71_sample.
Print Assumptions C71_refuses.
Print Assumptions C71_batch_sizes.
Print Assumptions C71_no_parameters_refuted.
Print Assumptions C71_little_endian_refuted.
Print Assumptions C71_projector_refuted.
Print Assumptions C71_generator_refuses.
Print Assumptions C71_state_batch.
Print Assumptions C71_backend.
