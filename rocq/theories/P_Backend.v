(** C52: running, sampling and measuring on the default simulator: shapes, batches and endianness. *)
From Coq Require Import String Reals List Arith Bool Lia Lra FunctionalExtensionality.
From Coquelicot Require Import Coquelicot.
From Coq Require Import List.
From Verif Require Import S_Sets S_Ops L_Ops M_Block S_Den L_Den L_Loc S_PSR S_State L_Inner M_Tensor L_Tensor S_Transpile M_Transpile L_Transpile P_Invert L_Gates M_Basis M_Convert S_Native L_Convert P_Convert P_ChainOps S_Tensor M_Backend.
Import ListNotations.
Open Scope nat_scope.

(** Row k of a matrix with 2^n columns, as a vector; a vector as a state. *)
Definition rowv (n : nat) (t : tensor) (k : nat) : list C := map (fun j => at_ t [k; j]) (seq 0 (2 ^ n)).
Definition vec_state (n : nat) (v : list C) : St := fun x => nth (bits_to_nat (map x (seq 0 n))) v (RtoC 0).
(** |0...0> *)
Definition zero_vec (n : nat) : list C := RtoC 1 :: repeat (RtoC 0) (2 ^ n - 1).
Definition compiles_to (op : env -> option Op) (b : block) : Prop := forall rho, op rho = Some (den rho b).

(** * Row-major order *)
Lemma volume_app s s' : volume (s ++ s') = volume s * volume s'.
Proof. induction s as [|a s IH]; simpl; [lia|]. rewrite IH. lia. Qed.
Lemma volume_twos n : volume (repeat 2 n) = 2 ^ n.
Proof. induction n as [|n IH]; [reflexivity|]. simpl repeat. change (volume (2 :: repeat 2 n)) with (2 * volume (repeat 2 n)). rewrite IH. reflexivity. Qed.
Lemma ravel_bits l B k : ravel (repeat 2 (length l) ++ [B]) (map b2n l ++ [k]) = bits_to_nat l * B + k.
Proof.
  induction l as [|b l IH]; [simpl; lia|]. cbn [length repeat app map ravel bits_to_nat]. rewrite IH, volume_app, volume_twos. cbn [volume fold_right].
  destruct b; cbn [b2n]; ring.
Qed.
Lemma unravel_bits l B k : k < B -> unravel (repeat 2 (length l) ++ [B]) (bits_to_nat l * B + k) = map b2n l ++ [k].
Proof.
  intros Hk. induction l as [|b l IH].
  - cbn [length repeat app map unravel bits_to_nat volume fold_right]. rewrite Nat.div_1_r. reflexivity.
  - cbn [length repeat app map unravel bits_to_nat]. rewrite volume_app, volume_twos. cbn [volume fold_right]. rewrite Nat.mul_1_r.
    assert (Hl : bits_to_nat l < 2 ^ length l) by apply bits_to_nat_lt.
    set (V := 2 ^ length l) in *.
    replace ((b2n b * V + bits_to_nat l) * B + k) with (b2n b * (V * B) + (bits_to_nat l * B + k)) by (destruct b; cbn [b2n]; ring).
    assert (Hr : bits_to_nat l * B + k < V * B) by nia.
    rewrite Nat.div_add_l by lia. rewrite (Nat.div_small _ _ Hr), Nat.add_0_r. f_equal.
    rewrite Nat.add_comm, Nat.mod_add by lia. rewrite Nat.mod_small by exact Hr. exact IH.
Qed.

Lemma pyqify_spec n t B : shape t = [B; 2 ^ n] -> exists p, pyqify t n = Some p /\ shape p = repeat 2 n ++ [B] /\
  forall l k, length l = n -> k < B -> at_ p (map b2n l ++ [k]) = at_ t [k; bits_to_nat l].
Proof.
  intros Hs. unfold pyqify, transpose. rewrite Hs, Nat.eqb_refl. cbn [obind]. unfold reshape. cbn [shape].
  rewrite volume_app, volume_twos. cbn [volume fold_right]. rewrite Nat.eqb_refl. eexists. split; [reflexivity|]. split; [reflexivity|].
  intros l k Hl Hk. cbn [at_ shape]. rewrite <- Hl, ravel_bits. cbn [unravel volume fold_right]. rewrite Nat.mul_1_r.
  set (x := bits_to_nat l). assert (D : (x * B + k) / B = x) by (rewrite Nat.div_add_l by lia; rewrite (Nat.div_small k B Hk); lia).
  assert (M : (x * B + k) mod B = k) by (rewrite Nat.add_comm, Nat.mod_add by lia; apply Nat.mod_small; exact Hk).
  rewrite D, M, Nat.div_1_r. reflexivity.
Qed.
Lemma unpyqify_spec n p B : 1 <= n -> shape p = repeat 2 n ++ [B] -> exists t, unpyqify p = Some t /\ shape t = [B; 2 ^ n] /\
  forall l k, length l = n -> k < B -> at_ t [k; bits_to_nat l] = at_ p (map b2n l ++ [k]).
Proof.
  intros Hn Hs. unfold unpyqify. rewrite Hs, app_length, repeat_length. cbn [length]. destruct (Nat.ltb_spec (n + 1) 2); [lia|].
  rewrite removelast_last, last_last, volume_twos. unfold reshape. rewrite Hs, volume_app, volume_twos. cbn [volume fold_right].
  rewrite Nat.eqb_refl. cbn [obind]. unfold transpose. cbn [shape]. eexists. split; [reflexivity|]. split; [reflexivity|].
  intros l k Hl Hk. cbn [at_ shape ravel volume fold_right]. rewrite !Nat.mul_1_r, Nat.add_0_r. rewrite <- Hl, unravel_bits by exact Hk. reflexivity.
Qed.
Lemma nth_seq_map {A} (f : nat -> A) d n k : k < n -> nth k (map f (seq 0 n)) d = f k.
Proof. intros H. rewrite (nth_indep _ d (f 0)) by (rewrite map_length, seq_length; exact H). rewrite map_nth, seq_nth by exact H. reflexivity. Qed.
Lemma rowv_nth n t k l : length l = n -> nth (bits_to_nat l) (rowv n t k) (RtoC 0) = at_ t [k; bits_to_nat l].
Proof.
  intros Hl. unfold rowv. assert (Hlt : bits_to_nat l < 2 ^ n) by (rewrite <- Hl; apply bits_to_nat_lt).
  apply (nth_seq_map (fun j => at_ t [k; j])). exact Hlt.
Qed.
Lemma rowv_length n t k : length (rowv n t k) = 2 ^ n. Proof. unfold rowv. rewrite map_length, seq_length. reflexivity. Qed.
Lemma vec_eq n (v w : list C) : length v = 2 ^ n -> length w = 2 ^ n ->
  (forall l, length l = n -> nth (bits_to_nat l) v (RtoC 0) = nth (bits_to_nat l) w (RtoC 0)) -> v = w.
Proof.
  intros Hv Hw H. apply (nth_ext _ _ (RtoC 0) (RtoC 0)); [congruence|]. rewrite Hv. intros k Hk. destruct (bits_to_nat_of_lt n k Hk) as (l & Hl & <-). apply H. exact Hl.
Qed.

(** The conversion to the simulator's layout and back loses nothing. *)
Theorem C52_layout : forall n t B, 1 <= n -> shape t = [B; 2 ^ n] ->
  exists p t', pyqify t n = Some p /\ shape p = repeat 2 n ++ [B] /\
    (forall l k, length l = n -> k < B -> at_ p (map b2n l ++ [k]) = at_ t [k; bits_to_nat l]) /\
    unpyqify p = Some t' /\ shape t' = [B; 2 ^ n] /\ forall k, k < B -> rowv n t' k = rowv n t k.
Proof.
  intros n t B Hn Hs. destruct (pyqify_spec n t B Hs) as (p & E & S & A). destruct (unpyqify_spec n p B Hn S) as (t' & E' & S' & A').
  exists p, t'. split; [exact E|]. split; [exact S|]. split; [exact A|]. split; [exact E'|]. split; [exact S'|]. intros k Hk.
  apply (vec_eq n); [apply rowv_length|apply rowv_length|]. intros l Hl. rewrite !rowv_nth by exact Hl. rewrite A', A by assumption. reflexivity.
Qed.

(** * The native run *)
Lemma osequence_Some {A B} (f : A -> B) l : osequence (map (fun x => Some (f x)) l) = Some (map f l).
Proof. induction l as [|a l IH]; [reflexivity|]. simpl. rewrite IH. reflexivity. Qed.
Lemma last_twos n B : last (repeat 2 n ++ [B]) 0 = B. Proof. apply last_last. Qed.
Lemma map_bits_n2b l : map n2b (map b2n l) = l.
Proof. induction l as [|[|] l IH]; [reflexivity| |]; simpl; rewrite IH; reflexivity. Qed.
Lemma amps_of n r (psi : St) : amps n psi r = psi (upds zeros (seq 0 n) r). Proof. reflexivity. Qed.
Lemma bits_of_upds n r : length r = n -> map (upds zeros (seq 0 n) r) (seq 0 n) = r.
Proof.
  intros H. apply (nth_ext _ _ false false); [rewrite map_length, seq_length; auto|]. rewrite map_length, seq_length. intros k Hk.
  rewrite (nth_seq_map _ false n k Hk). apply amps_bit; assumption.
Qed.
Lemma amps_state n p k r : length r = n -> amps n (state_of n p k) r = at_ p (map b2n r ++ [k]).
Proof. intros H. unfold amps, state_of. rewrite bits_of_upds by exact H. reflexivity. Qed.
Lemma amps_vec n v r : length r = n -> amps n (vec_state n v) r = nth (bits_to_nat r) v (RtoC 0).
Proof. intros H. unfold amps, vec_state. rewrite bits_of_upds by exact H. reflexivity. Qed.

Lemma amps_den n rho b f g : (forall q, In q (qubits b) -> q < n) -> (forall r, length r = n -> amps n f r = amps n g r) ->
  forall r, length r = n -> amps n (den rho b f) r = amps n (den rho b g) r.
Proof.
  intros Hq H r Hr. rewrite (within_is_gate n _ (within_den n rho b Hq)). rewrite !amps_gate by exact Hr.
  apply csum_ext. intros c Hc. apply bits_length in Hc. rewrite H by exact Hc. reflexivity.
Qed.
Lemma run_vec_amps n rho b v r : (forall q, In q (qubits b) -> q < n) -> length r = n ->
  nth (bits_to_nat r) (run_vec n (den rho b) v) (RtoC 0) = amps n (den rho b (vec_state n v)) r.
Proof.
  intros Hq Hr. rewrite run_vec_nth by exact Hr. symmetry.
  transitivity (amps n (gate (seq 0 n) (matof (seq 0 n) (den rho b)) (vec_state n v)) r); [rewrite <- (within_is_gate n _ (within_den n rho b Hq)); reflexivity|].
  rewrite amps_gate by exact Hr. apply csum_ext. intros c Hc. apply bits_length in Hc. rewrite amps_vec by exact Hc. reflexivity.
Qed.
Lemma expval_amps n rho b f g : (forall q, In q (qubits b) -> q < n) -> (forall r, length r = n -> amps n f r = amps n g r) ->
  expval n f (den rho b) = expval n g (den rho b).
Proof.
  intros Hq H. unfold expval, inner. apply csum_ext. intros r Hr. apply bits_length in Hr. rewrite H by exact Hr. f_equal. apply amps_den; assumption.
Qed.

Lemma native_run_spec n op b v p Bs Bv B : compiles_to op b -> shape p = repeat 2 n ++ [Bs] -> vbatch v = Some Bv -> broadcast Bs Bv = Some B ->
  exists out, native_run n op v p = Some out /\ shape out = repeat 2 n ++ [B] /\
    forall k l, k < B -> length l = n -> at_ out (map b2n l ++ [k]) = amps n (den (vrow v k) b (state_of n p (pick Bs k))) l.
Proof.
  intros HC Hs Hv HB. unfold native_run. rewrite Hv. cbn [obind]. rewrite Hs, last_twos, HB. cbn [obind].
  rewrite (map_ext _ (fun k => Some (den (vrow v k) b (state_of n p (pick Bs k))))) by (intros k; rewrite HC; reflexivity).
  rewrite osequence_Some. cbn [omap obind]. unfold omap. cbn [obind]. eexists. split; [reflexivity|]. split; [reflexivity|].
  intros k l Hk Hl. cbn [at_]. rewrite last_last, removelast_last, map_bits_n2b. rewrite (nth_seq_map (fun k => den (vrow v k) b (state_of n p (pick Bs k)))) by exact Hk. reflexivity.
Qed.

Lemma pick_lt Bs Bv B k : broadcast Bs Bv = Some B -> k < B -> pick Bs k < Bs.
Proof.
  unfold broadcast, pick. destruct (Nat.eqb_spec Bs Bv), (Nat.eqb_spec Bs 1), (Nat.eqb_spec Bv 1); intros H Hk; try discriminate; injection H as <-; lia.
Qed.

(** * run *)
Definition reordered (n : nat) (e : endian) (v : list C) : list C := match e with Big => v | Little => invert_wf n v end.

Lemma finish n e out0 B (f : nat -> list bool -> C) : 1 <= n -> shape out0 = repeat 2 n ++ [B] ->
  (forall k l, k < B -> length l = n -> at_ out0 (map b2n l ++ [k]) = f k l) ->
  exists out, obind (unpyqify out0) (invert_if e) = Some out /\ shape out = [B; 2 ^ n] /\
    forall k v, k < B -> length v = 2 ^ n -> (forall l, length l = n -> nth (bits_to_nat l) v (RtoC 0) = f k l) -> rowv n out k = reordered n e v.
Proof.
  intros Hn Hs Hf. destruct (unpyqify_spec n out0 B Hn Hs) as (t & E & S & A). rewrite E. cbn [obind]. destruct e.
  - exists t. split; [reflexivity|]. split; [exact S|]. intros k v Hk Hv Hl. cbn [reordered]. apply (vec_eq n); [apply rowv_length|exact Hv|].
    intros l L. rewrite rowv_nth, A, Hf, Hl by assumption. reflexivity.
  - unfold invert_if, invert_tensor. rewrite S. assert (P : 2 ^ n <> 0) by (apply Nat.pow_nonzero; lia). destruct (Nat.eqb_spec (2 ^ n) 0); [tauto|].
    rewrite Nat.log2_pow2 by lia. eexists. split; [reflexivity|]. split; [reflexivity|]. intros k v Hk Hv Hl. cbn [reordered].
    apply (vec_eq n); [apply rowv_length|apply invert_wf_length|]. intros l L. rewrite rowv_nth, invert_wf_nth by exact L. cbn [at_].
    rewrite <- L at 1. rewrite nat_to_bits_bits. rewrite A, Hf, Hl by (rewrite ?rev_length; assumption). reflexivity.
Qed.

(** A given batch of states: every row of the result is the block's operator, at the row's parameter values, applied to the row's
    state; with little endianness the amplitudes are in bit-reversed order. *)
Theorem C52_run : forall n op b v st Bs Bv B e, 1 <= n -> (forall q, In q (qubits b) -> q < n) -> compiles_to op b ->
  shape st = [Bs; 2 ^ n] -> vbatch v = Some Bv -> broadcast Bs Bv = Some B ->
  exists out, run n op v (Some st) e true = Some out /\ shape out = [B; 2 ^ n] /\
    forall k, k < B -> rowv n out k = reordered n e (run_vec n (den (vrow v k) b) (rowv n st (pick Bs k))).
Proof.
  intros n op b v st Bs Bv B e Hn Hq HC Hs Hv HB. unfold run, validate_state, is_qadence_shape. rewrite Hs. cbn [length Nat.ltb Nat.leb nth]. rewrite Nat.eqb_refl. cbn [orb].
  destruct (pyqify_spec n st Bs Hs) as (p & E & S & A). rewrite E. cbn [obind].
  destruct (native_run_spec n op b v p Bs Bv B HC S Hv HB) as (o & Eo & So & Ao). rewrite Eo. cbn [obind].
  destruct (finish n e o B (fun k l => amps n (den (vrow v k) b (state_of n p (pick Bs k))) l) Hn So Ao) as (out & E1 & S1 & R1).
  exists out. split; [exact E1|]. split; [exact S1|]. intros k Hk. apply R1; [exact Hk|apply run_vec_length|]. intros l L.
  rewrite run_vec_amps by assumption. apply amps_den; [exact Hq| |exact L]. intros r Hr. rewrite amps_vec, amps_state by exact Hr.
  rewrite rowv_nth by exact Hr. symmetry. apply A; [exact Hr|]. eapply pick_lt; eassumption.
Qed.

Lemma infer_broadcast v Bv : (forall l, In l (sizes v) -> 1 <= l) -> vbatch v = Some Bv -> broadcast (infer_batchsize v) Bv = Some Bv.
Proof.
  intros H1 Hv. unfold vbatch in Hv. destruct (forallb _ (sizes v)); [|discriminate]. injection Hv as <-. unfold infer_batchsize.
  destruct (lens v) as [|o ls] eqn:E; [unfold sizes; rewrite E; reflexivity|].
  destruct (forallb _ (o :: ls)) eqn:F.
  - assert (G : fold_right Nat.max 0 (map (fun o => match o with Some l => l | None => 0 end) (o :: ls)) = fold_right Nat.max 1 (sizes v)).
    { unfold sizes in *. rewrite E in *. clear E. revert o F H1. induction ls as [|a ls IH]; intros o F H1.
      - cbn in *. destruct o as [l|]; [|discriminate]. specialize (H1 l (or_introl eq_refl)). lia.
      - cbn [forallb] in F. apply andb_true_iff in F as [F1 F2]. cbn [map fold_right]. cbn [map fold_right] in IH.
        rewrite (IH a F2) by (intros l Hl; apply H1; right; exact Hl). destruct o; [reflexivity|discriminate]. }
    rewrite G. unfold broadcast. rewrite Nat.eqb_refl. reflexivity.
  - unfold broadcast. destruct (Nat.eqb_spec 1 (fold_right Nat.max 1 (sizes v))) as [Q|Q]; [rewrite <- Q; reflexivity|reflexivity].
Qed.
Lemma zero_vec_nth n l : length l = n -> nth (bits_to_nat l) (zero_vec n) (RtoC 0) = if forallb (Nat.eqb 0) (map b2n l) then RtoC 1 else RtoC 0.
Proof.
  intros Hl. assert (Z : forallb (Nat.eqb 0) (map b2n l) = true <-> bits_to_nat l = 0).
  { clear Hl. induction l as [|[|] l IH]; cbn [map forallb b2n bits_to_nat]; [tauto| |].
    - cbn. split; [discriminate|]. pose proof (Nat.pow_nonzero 2 (length l)). lia.
    - cbn. exact IH. }
  unfold zero_vec. destruct (forallb (Nat.eqb 0) (map b2n l)) eqn:F; [rewrite (proj1 Z eq_refl); reflexivity|].
  destruct (bits_to_nat l) as [|m]; [pose proof (proj2 Z eq_refl) as Q; discriminate Q|]. cbn [nth].
  destruct (Nat.lt_ge_cases m (2 ^ n - 1)); [apply nth_repeat|]. apply nth_overflow. rewrite repeat_length. lia.
Qed.

(** Without a state, every row starts in |0...0> and there is one row per parameter value. *)
Theorem C52_run_default : forall n op b v Bv e, 1 <= n -> (forall q, In q (qubits b) -> q < n) -> compiles_to op b ->
  (forall l, In l (sizes v) -> 1 <= l) -> vbatch v = Some Bv ->
  exists out, run n op v None e true = Some out /\ shape out = [Bv; 2 ^ n] /\
    forall k, k < Bv -> rowv n out k = reordered n e (run_vec n (den (vrow v k) b) (zero_vec n)).
Proof.
  intros n op b v Bv e Hn Hq HC H1 Hv. unfold run. cbn [obind].
  pose proof (infer_broadcast v Bv H1 Hv) as HB.
  destruct (native_run_spec n op b v (init_state n (infer_batchsize v)) _ Bv Bv HC eq_refl Hv HB) as (o & Eo & So & Ao). rewrite Eo. cbn [obind].
  destruct (finish n e o Bv _ Hn So Ao) as (out & E1 & S1 & R1).
  exists out. split; [exact E1|]. split; [exact S1|]. intros k Hk. apply R1; [exact Hk|apply run_vec_length|]. intros l L.
  rewrite run_vec_amps by assumption. apply amps_den; [exact Hq| |exact L]. intros r Hr. rewrite amps_vec, amps_state by exact Hr.
  rewrite zero_vec_nth by exact Hr. cbn [init_state at_]. rewrite removelast_last. reflexivity.
Qed.

(** * Expectation values and samples *)
(** The initial states of a call: the rows [v0] of a given batch, or |0...0>. *)
Inductive starts (n : nat) (v : vals) : option tensor -> nat -> (nat -> list C) -> Prop :=
| starts_default : starts n v None (infer_batchsize v) (fun _ => zero_vec n)
| starts_given st Bs : shape st = [Bs; 2 ^ n] -> starts n v (Some st) Bs (rowv n st).

Lemma start_spec n v state Bs v0 : starts n v state Bs v0 -> exists p,
  match state with None => Some (init_state n (infer_batchsize v)) | Some s => if validate_state s n then pyqify s n else None end = Some p /\
  match state with None => Some (init_state n (infer_batchsize v)) | Some s => pyqify s n end = Some p /\
  shape p = repeat 2 n ++ [Bs] /\ forall k r, k < Bs -> length r = n -> amps n (state_of n p k) r = amps n (vec_state n (v0 k)) r.
Proof.
  intros [|st Bs' Hs].
  - eexists. split; [reflexivity|]. split; [reflexivity|]. split; [reflexivity|]. intros k r Hk Hr. rewrite amps_state, amps_vec, zero_vec_nth by exact Hr.
    cbn [init_state at_]. rewrite removelast_last. reflexivity.
  - destruct (pyqify_spec n st Bs' Hs) as (p & E & S & A). exists p. split; [|split; [exact E|split; [exact S|]]].
    + unfold validate_state, is_qadence_shape. rewrite Hs. cbn [length Nat.ltb Nat.leb nth]. rewrite Nat.eqb_refl. exact E.
    + intros k r Hk Hr. rewrite amps_state, amps_vec, rowv_nth by exact Hr. apply A; assumption.
Qed.

Lemma run_raw n op b v state Bs v0 Bv B : (forall q, In q (qubits b) -> q < n) -> compiles_to op b -> starts n v state Bs v0 ->
  vbatch v = Some Bv -> broadcast Bs Bv = Some B ->
  exists out, (forall e, run n op v state e false = invert_if e out) /\ shape out = repeat 2 n ++ [B] /\
    forall k l, k < B -> length l = n -> at_ out (map b2n l ++ [k]) = amps n (den (vrow v k) b (vec_state n (v0 (pick Bs k)))) l.
Proof.
  intros Hq HC HS Hv HB. destruct (start_spec n v state Bs v0 HS) as (p & E & _ & S & A).
  destruct (native_run_spec n op b v p Bs Bv B HC S Hv HB) as (o & Eo & So & Ao). exists o. split; [|split; [exact So|]].
  - intros e. unfold run. rewrite E. cbn [obind]. rewrite Eo. reflexivity.
  - intros k l Hk Hl. rewrite Ao by assumption. apply amps_den; [exact Hq| |exact Hl]. intros r Hr. apply A; [|exact Hr]. eapply pick_lt; eassumption.
Qed.

(** Inverting a state in the simulator's layout does nothing for two or more qubits (and for one state of one qubit). *)
Lemma invert_raw n t B : (2 <= n \/ n = 1 /\ B = 1) -> shape t = repeat 2 n ++ [B] -> exists t', invert_tensor t = Some t' /\ shape t' = repeat 2 n ++ [B] /\
  forall k l, k < B -> length l = n -> at_ t' (map b2n l ++ [k]) = at_ t (map b2n l ++ [k]).
Proof.
  intros [Hn|[-> ->]] Hs.
  - destruct n as [|[|m]]; [lia|lia|]. unfold invert_tensor. rewrite Hs. cbn [repeat app Nat.eqb].
    eexists. split; [reflexivity|]. split; [reflexivity|]. intros k l Hk Hl. destruct l as [|a [|c l]]; [discriminate|discriminate|]. cbn [map app at_]. f_equal. f_equal. f_equal.
    change (Nat.log2 2) with 1. destruct c; reflexivity.
  - unfold invert_tensor. rewrite Hs. cbn [repeat app Nat.eqb]. eexists. split; [reflexivity|]. split; [reflexivity|]. intros k l Hk Hl.
    destruct l as [|a [|c l]]; [discriminate| |discriminate]. cbn [map app at_]. replace k with 0 by lia. reflexivity.
Qed.

Lemma native_exp_spec n o O v s B1 f Bo B : compiles_to o O -> (forall q, In q (qubits O) -> q < n) -> shape s = repeat 2 n ++ [B1] ->
  vbatch v = Some Bo -> broadcast B1 Bo = Some B ->
  (forall k l, k < B1 -> length l = n -> at_ s (map b2n l ++ [k]) = amps n (f k) l) ->
  native_expectation n o v s = Some (map (fun k => fst (expval n (f (pick B1 k)) (den (vrow v k) O))) (seq 0 B)).
Proof.
  intros HC Hq Hs Hv HB Hf. unfold native_expectation. rewrite Hv. cbn [obind]. rewrite Hs, last_twos, HB. cbn [obind].
  rewrite (map_ext _ (fun k => Some (fst (expval n (state_of n s (pick B1 k)) (den (vrow v k) O))))) by (intros k; rewrite HC; reflexivity).
  rewrite osequence_Some. f_equal. apply map_ext_in. intros k Hk. apply in_seq in Hk. f_equal. apply expval_amps; [exact Hq|].
  intros r Hr. rewrite amps_state by exact Hr. apply Hf; [|exact Hr]. apply (pick_lt B1 Bo B); [exact HB|lia].
Qed.
Lemma native_exp_list n obs Os v s B1 f Bo B : Forall2 compiles_to obs Os -> (forall O q, In O Os -> In q (qubits O) -> q < n) ->
  shape s = repeat 2 n ++ [B1] -> vbatch v = Some Bo -> broadcast B1 Bo = Some B ->
  (forall k l, k < B1 -> length l = n -> at_ s (map b2n l ++ [k]) = amps n (f k) l) ->
  osequence (map (fun o => native_expectation n o v s) obs) = Some (map (fun O => map (fun k => fst (expval n (f (pick B1 k)) (den (vrow v k) O))) (seq 0 B)) Os).
Proof.
  intros F Hq Hs Hv HB Hf. induction F as [|o O obs Os HC F IH]; [reflexivity|]. cbn [map osequence].
  rewrite (native_exp_spec n o O v s B1 f Bo B) by first [assumption|intros q; apply (Hq O); left; reflexivity]. cbn [obind].
  rewrite IH by (intros O' q HO; apply Hq; right; exact HO). reflexivity.
Qed.
Lemma hstack_cols {A} (Os : list A) (g : A -> nat -> R) B : Os <> [] ->
  hstack (map (fun O => map (g O) (seq 0 B)) Os) = Some (map (fun k => map (fun O => g O k) Os) (seq 0 B)).
Proof.
  intros Hne. destruct Os as [|O Os]; [congruence|]. unfold hstack. cbn [map].
  replace (forallb _ (map (fun O => map (g O) (seq 0 B)) Os)) with true.
  2:{ symmetry. apply forallb_forall. intros c Hc. apply in_map_iff in Hc as (O' & <- & _). rewrite !map_length. apply Nat.eqb_refl. }
  rewrite map_length, seq_length. f_equal. apply map_ext_in. intros k Hk. apply in_seq in Hk. rewrite nth_seq_map by lia. f_equal. rewrite map_map.
  apply map_ext. intros O'. apply nth_seq_map. lia.
Qed.

(** expectation: row k, column O is the real part of <psi_k|O|psi_k> for the k-th final state. *)
Theorem C52_expectation : forall n op b obs Os vc vo state Bs v0 Bc B1 Bo B e, (e = Big \/ 2 <= n) ->
  (forall q, In q (qubits b) -> q < n) -> compiles_to op b ->
  Os <> [] -> Forall2 compiles_to obs Os -> (forall O q, In O Os -> In q (qubits O) -> q < n) ->
  starts n vc state Bs v0 -> vbatch vc = Some Bc -> broadcast Bs Bc = Some B1 -> vbatch vo = Some Bo -> broadcast B1 Bo = Some B ->
  batched_expectation n op obs vc vo state e =
  Some (map (fun k => map (fun O => fst (expval n (den (vrow vc (pick B1 k)) b (vec_state n (v0 (pick Bs (pick B1 k))))) (den (vrow vo k) O))) Os) (seq 0 B)).
Proof.
  intros n op b obs Os vc vo state Bs v0 Bc B1 Bo B e He Hq HC Hne F HqO HS Hvc HB1 Hvo HB. unfold batched_expectation.
  destruct (run_raw n op b vc state Bs v0 Bc B1 Hq HC HS Hvc HB1) as (out & ER & S & A). rewrite ER.
  set (f := fun k => den (vrow vc k) b (vec_state n (v0 (pick Bs k)))).
  assert (G : exists s, invert_if e out = Some s /\ shape s = repeat 2 n ++ [B1] /\ forall k l, k < B1 -> length l = n -> at_ s (map b2n l ++ [k]) = amps n (f k) l).
  { destruct e; [exists out; split; [reflexivity|split; [exact S|exact A]]|]. destruct He as [He|He]; [discriminate|].
    destruct (invert_raw n out B1 (or_introl He) S) as (t' & E' & S' & A'). exists t'. split; [exact E'|]. split; [exact S'|].
    intros k l Hk Hl. rewrite A' by assumption. apply A; assumption. }
  destruct G as (s & Es & Ss & As). rewrite Es. cbn [obind]. rewrite (native_exp_list n obs Os vo s B1 f Bo B F HqO Ss Hvo HB As). cbn [obind].
  apply (hstack_cols Os (fun O k => fst (expval n (f (pick B1 k)) (den (vrow vo k) O)))). exact Hne.
Qed.

(** The loop over the batch (loop_expectation=True) gives the same table, for either endianness. *)
Theorem C52_looped : forall n op b obs Os v state v0 ls e, 1 <= n ->
  (forall q, In q (qubits b) -> q < n) -> compiles_to op b ->
  Forall2 compiles_to obs Os -> (forall O q, In O Os -> In q (qubits O) -> q < n) ->
  (state = None /\ v0 = zero_vec n \/ exists st, state = Some st /\ shape st = [1; 2 ^ n] /\ v0 = rowv n st 0) ->
  lens v = map Some ls -> (forall l, In l ls -> l = 1 \/ l = fold_right Nat.max 1 ls) ->
  looped_expectation n op obs v v state e =
  Some (map (fun k => map (fun O => fst (expval n (den (vrow v k) b (vec_state n v0)) (den (vrow v k) O))) Os) (seq 0 (fold_right Nat.max 1 ls))).
Proof.
  intros n op b obs Os v state v0 ls e Hn Hq HC F HqO HS Hl H1.
  set (st := match state with None => Tn [1; 2 ^ n] (fun i => if forallb (Nat.eqb 0) i then RtoC 1 else RtoC 0) | Some s => s end).
  assert (St : shape st = [1; 2 ^ n] /\ rowv n st 0 = v0).
  { destruct HS as [[-> ->]|(s & -> & S & ->)]; [|split; [exact S|reflexivity]]. split; [reflexivity|].
    apply (vec_eq n); [apply rowv_length|unfold zero_vec; cbn [length]; rewrite repeat_length; pose proof (Nat.pow_nonzero 2 n); lia|].
    intros l L. rewrite rowv_nth by exact L. cbn [st at_ forallb Nat.eqb andb]. destruct (bits_to_nat l) as [|x]; [reflexivity|]. unfold zero_vec. cbn [nth Nat.eqb andb].
    symmetry. destruct (Nat.lt_ge_cases x (2 ^ n - 1)); [apply nth_repeat|apply nth_overflow; rewrite repeat_length; lia]. }
  destruct St as [S0 R0]. unfold looped_expectation. fold st. rewrite S0. cbn [nth Nat.eqb negb].
  set (row := fun w => map (fun O => fst (expval n (den w b (vec_state n v0)) (den w O))) Os).
  assert (ROW : forall w, vbatch w = Some 1 -> obind (run n op w (Some st) e false) (fun wf =>
     omap (@concat R) (osequence (map (fun o => native_expectation n o w wf) obs))) = Some (row (vrow w 0))).
  { intros w Hw. destruct (run_raw n op b w (Some st) 1 (rowv n st) 1 1 Hq HC (starts_given n w st 1 S0) Hw eq_refl) as (out & ER & S & A). rewrite ER.
    assert (G : exists s, invert_if e out = Some s /\ shape s = repeat 2 n ++ [1] /\
       forall k l, k < 1 -> length l = n -> at_ s (map b2n l ++ [k]) = amps n ((fun k => den (vrow w k) b (vec_state n (rowv n st (pick 1 k)))) k) l).
    { destruct e; [exists out; split; [reflexivity|split; [exact S|exact A]]|].
      destruct (invert_raw n out 1 ltac:(destruct (Nat.eq_dec n 1); [right; split; [assumption|reflexivity]|left; lia]) S) as (t' & E' & S' & A').
      exists t'. split; [exact E'|]. split; [exact S'|]. intros k l Hk L. rewrite A' by assumption. apply A; assumption. }
    destruct G as (s & Es & Ss & As). rewrite Es. cbn [obind]. rewrite (native_exp_list n obs Os w s 1 _ 1 1 F HqO Ss Hw eq_refl As).
    cbn [omap obind seq map]. unfold omap. cbn [obind]. f_equal. unfold row. cbn [pick Nat.eqb]. rewrite R0. clear. induction Os as [|O Os IH]; [reflexivity|]. cbn. f_equal. exact IH. }
  assert (CM : forall A (l : list A), combine l l = map (fun x => (x, x)) l) by (intros A l; induction l as [|x l IH]; [reflexivity|]; cbn; rewrite IH; reflexivity).
  unfold to_list_of_dicts. rewrite Hl. destruct ls as [|l0 ls'].
  - cbn [map obind combine osequence fold_right seq fst snd]. rewrite ROW; [reflexivity|]. unfold vbatch, sizes. rewrite Hl. reflexivity.
  - cbn [map]. set (ls := l0 :: ls') in *. change (Some l0 :: map Some ls') with (map (@Some nat) ls).
    assert (OS : osequence (map (@Some nat) ls) = Some ls) by (clear; induction ls as [|a ls IH]; [reflexivity|]; cbn; rewrite IH; reflexivity).
    rewrite OS. cbn [obind].
    assert (M : fold_right Nat.max 0 ls = fold_right Nat.max 1 ls).
    { assert (P : 1 <= l0). { destruct (H1 l0 (or_introl eq_refl)) as [-> | H]; [lia|]. rewrite H. clear. induction ls as [|a l IH]; cbn [fold_right]; lia. }
      assert (K : forall l, fold_right Nat.max 1 l = Nat.max 1 (fold_right Nat.max 0 l)) by (induction l as [|a l IH]; [reflexivity|]; cbn [fold_right]; rewrite IH; lia).
      rewrite K. unfold ls. cbn [fold_right]. lia. }
    rewrite M. set (m := fold_right Nat.max 1 ls) in *. rewrite CM, map_map, map_map. cbn [fst snd].
    rewrite (map_ext_in _ (fun k => Some (row (vrow v k)))).
    + rewrite osequence_Some. reflexivity.
    + intros k Hk. rewrite ROW; [reflexivity|]. unfold vbatch, sizes. cbn [lens]. rewrite map_map.
      set (h := fun l => match (if l =? m then None else Some l) with Some l1 => l1 | None => 1 end).
      assert (ONE : forall x, In x (map h ls) -> x = 1).
      { intros x Hx. apply in_map_iff in Hx as (l & <- & Il). unfold h. destruct (Nat.eqb_spec l m); [reflexivity|]. destruct (H1 l Il); tauto. }
      generalize dependent (map h ls). intros xs ONE. assert (MX : fold_right Nat.max 1 xs = 1).
      { clear - ONE. induction xs as [|x xs IH]; [reflexivity|]. cbn [fold_right]. rewrite IH by (intros y Hy; apply ONE; right; exact Hy). rewrite (ONE x (or_introl eq_refl)). reflexivity. }
      rewrite MX. replace (forallb _ xs) with true; [reflexivity|]. symmetry. apply forallb_forall. intros x Hx. rewrite (ONE x Hx). reflexivity.
Qed.

(** sample: one counter per row, drawn from the Born probabilities of the row's final state; little endianness reverses the
    bitstrings. *)
Theorem C52_sample : forall n op b draw v state Bs v0 Bv B e, (forall q, In q (qubits b) -> q < n) -> compiles_to op b ->
  (forall k f g, (forall r, length r = n -> f r = g r) -> draw k f = draw k g) ->
  starts n v state Bs v0 -> vbatch v = Some Bv -> broadcast Bs Bv = Some B ->
  sample n op draw v state e =
  Some (map (fun k => let c := draw k (prob n (den (vrow v k) b (vec_state n (v0 (pick Bs k))))) in
                      match e with Big => c | Little => map (fun kv => (rev (fst kv), snd kv)) c end) (seq 0 B)).
Proof.
  intros n op b draw v state Bs v0 Bv B e Hq HC HD HS Hv HB. destruct (start_spec n v state Bs v0 HS) as (p & _ & E & S & A).
  unfold sample. rewrite E. cbn [obind]. unfold native_sample. rewrite Hv. cbn [obind]. rewrite S, last_twos, HB. cbn [obind].
  set (c := fun k => draw k (prob n (den (vrow v k) b (vec_state n (v0 (pick Bs k)))))).
  rewrite (map_ext_in _ (fun k => Some (c k))).
  - rewrite osequence_Some. cbn [omap obind]. unfold omap. cbn [obind]. f_equal. unfold c. destruct e; [reflexivity|]. rewrite map_map. apply map_ext. intros k. apply C08_invert_counter.
  - intros k Hk. apply in_seq in Hk. rewrite HC. cbn [omap obind]. unfold omap. cbn [obind]. f_equal. apply HD. intros r Hr. unfold prob.
    rewrite (amps_den n (vrow v k) b (state_of n p (pick Bs k)) (vec_state n (v0 (pick Bs k))) Hq); [reflexivity| |exact Hr].
    intros r' Hr'. apply A; [|exact Hr']. eapply pick_lt; [exact HB|lia].
Qed.

(** * Where the behaviour is surprising *)
Lemma nat_to_bits_length n k : length (nat_to_bits n k) = n.
Proof. induction n as [|n IH]; [reflexivity|]. cbn [nat_to_bits length]. rewrite IH. reflexivity. Qed.
Lemma one_qubit_little op b obs Os vc vo state Bs v0 Bc B1 d : (forall q, In q (qubits b) -> q < 1) -> compiles_to op b ->
  Os <> [] -> Forall2 compiles_to obs Os -> (forall O q, In O Os -> In q (qubits O) -> q < 1) ->
  starts 1 vc state Bs v0 -> vbatch vc = Some Bc -> broadcast Bs Bc = Some B1 -> vbatch vo = Some 1 ->
  B1 <> 0 -> d = Nat.log2 B1 -> 2 ^ d <> 1 ->
  batched_expectation 1 op obs vc vo state Little =
  Some (map (fun k => let k' := bits_to_nat (rev (nat_to_bits d k)) in
    map (fun O => fst (expval 1 (den (vrow vc k') b (vec_state 1 (v0 (pick Bs k')))) (den (vrow vo k) O))) Os) (seq 0 (2 ^ d))).
Proof.
  intros Hq HC Hne F HqO HS Hvc HB1 Hvo H0 -> H1. unfold batched_expectation.
  destruct (run_raw 1 op b vc state Bs v0 Bc B1 Hq HC HS Hvc HB1) as (out & ER & S & A). rewrite ER.
  set (d := Nat.log2 B1) in *. set (sg := fun k => bits_to_nat (rev (nat_to_bits d k))).
  set (f := fun k => den (vrow vc (sg k)) b (vec_state 1 (v0 (pick Bs (sg k))))).
  unfold invert_if, invert_tensor. rewrite S. cbn [repeat app]. destruct (Nat.eqb_spec B1 0); [tauto|]. fold d. cbn [obind].
  set (s := Tn _ _). assert (Ss : shape s = repeat 2 1 ++ [2 ^ d]) by reflexivity.
  assert (sg_lt : forall k, k < 2 ^ d -> sg k < B1).
  { intros k Hk. unfold sg. assert (L : length (rev (nat_to_bits d k)) = d) by (rewrite rev_length; apply nat_to_bits_length).
    pose proof (bits_to_nat_lt (rev (nat_to_bits d k))). rewrite L in H. pose proof (Nat.log2_spec B1 ltac:(lia)). fold d in H2. lia. }
  assert (As : forall k l, k < 2 ^ d -> length l = 1 -> at_ s (map b2n l ++ [k]) = amps 1 (f k) l).
  { intros k l Hk Hl. destruct l as [|x [|y l]]; try discriminate. cbn [s at_ map app]. fold (sg k). apply (A (sg k) [x]); [apply sg_lt; exact Hk|reflexivity]. }
  assert (HB : broadcast (2 ^ d) 1 = Some (2 ^ d)).
  { unfold broadcast. destruct (Nat.eqb_spec (2 ^ d) 1); [tauto|]. reflexivity. }
  rewrite (native_exp_list 1 obs Os vo s (2 ^ d) f 1 (2 ^ d) F HqO Ss Hvo HB As). cbn [obind].
  rewrite (hstack_cols Os (fun O k => fst (expval 1 (f (pick (2 ^ d) k)) (den (vrow vo k) O))) (2 ^ d) Hne).
  f_equal. apply map_ext. intros k. apply map_ext. intros O. unfold pick at 1. destruct (Nat.eqb_spec (2 ^ d) 1); [tauto|]. reflexivity.
Qed.

(** One qubit, little endianness: the batch index is inverted instead of the qubit index.  A batch of three loses its last row. *)
Theorem C52_one_qubit_truncated_refuted : forall op b obs Os vc vo state Bs v0 Bc, (forall q, In q (qubits b) -> q < 1) -> compiles_to op b ->
  Os <> [] -> Forall2 compiles_to obs Os -> (forall O q, In O Os -> In q (qubits O) -> q < 1) ->
  starts 1 vc state Bs v0 -> vbatch vc = Some Bc -> broadcast Bs Bc = Some 3 -> vbatch vo = Some 1 ->
  exists t, batched_expectation 1 op obs vc vo state Little = Some t /\ length t = 2.
Proof.
  intros op b obs Os vc vo state Bs v0 Bc Hq HC Hne F HqO HS Hvc HB Hvo. eexists. split.
  - apply (one_qubit_little op b obs Os vc vo state Bs v0 Bc 3 1); try assumption; [discriminate|reflexivity|discriminate].
  - reflexivity.
Qed.
(** A batch of four comes back with its second and third rows exchanged. *)
Theorem C52_one_qubit_permuted_refuted : forall op b obs Os vc vo state Bs v0 Bc, (forall q, In q (qubits b) -> q < 1) -> compiles_to op b ->
  Os <> [] -> Forall2 compiles_to obs Os -> (forall O q, In O Os -> In q (qubits O) -> q < 1) ->
  starts 1 vc state Bs v0 -> vbatch vc = Some Bc -> broadcast Bs Bc = Some 4 -> vbatch vo = Some 1 ->
  batched_expectation 1 op obs vc vo state Little =
  Some (map (fun kk => map (fun O => fst (expval 1 (den (vrow vc (snd kk)) b (vec_state 1 (v0 (pick Bs (snd kk))))) (den (vrow vo (fst kk)) O))) Os)
         [(0, 0); (1, 2); (2, 1); (3, 3)]).
Proof.
  intros op b obs Os vc vo state Bs v0 Bc Hq HC Hne F HqO HS Hvc HB Hvo.
  rewrite (one_qubit_little op b obs Os vc vo state Bs v0 Bc 4 2); try assumption; [reflexivity|discriminate|reflexivity|discriminate].
Qed.

(** With little endianness the result is reordered but the given state is not: running the identity does not return the state. *)
Theorem C52_little_state_refuted : forall op v st, compiles_to op (BPrim PI_ 0) -> vbatch v = Some 1 -> shape st = [1; 2 ^ 2] ->
  rowv 2 st 0 = [RtoC 0; RtoC 1; RtoC 0; RtoC 0] ->
  exists out, run 2 op v (Some st) Little true = Some out /\ rowv 2 out 0 = [RtoC 0; RtoC 0; RtoC 1; RtoC 0].
Proof.
  intros op v st HC Hv Hs Hr.
  destruct (C52_run 2 op (BPrim PI_ 0) v st 1 1 1 Little ltac:(lia) ltac:(cbn; intros q [<- | []]; lia) HC Hs Hv eq_refl) as (out & E & _ & R).
  exists out. split; [exact E|]. rewrite R by lia. cbn [pick Nat.eqb]. rewrite Hr. cbn [reordered].
  replace (run_vec 2 (den (vrow v 0) (BPrim PI_ 0)) [RtoC 0; RtoC 1; RtoC 0; RtoC 0]) with [RtoC 0; RtoC 1; RtoC 0; RtoC 0]; [reflexivity|].
  symmetry. apply (vec_eq 2); [apply run_vec_length|reflexivity|]. intros l L. rewrite run_vec_amps by (try exact L; cbn; intros q [<- | []]; lia).
  replace (den (vrow v 0) (BPrim PI_ 0)) with idop by (symmetry; apply gate1_id; intros [|] [|]; reflexivity). unfold idop. apply amps_vec. exact L.
Qed.

(** A state in the simulator's own layout is refused, although the error message offers that layout. *)
Theorem C52_pyq_shape_refuted : forall n op v st B e u, 2 <= n -> shape st = repeat 2 n ++ [B] -> run n op v (Some st) e u = None.
Proof.
  intros n op v st B e u Hn Hs. unfold run, validate_state, is_qadence_shape, is_pyq_shape. rewrite Hs.
  destruct n as [|[|n]]; [lia|lia|]. cbn [repeat app length nth Nat.ltb Nat.leb].
  assert (P : 2 <> 2 ^ S (S n)) by (cbn [Nat.pow]; pose proof (Nat.pow_nonzero 2 n); lia). destruct (Nat.eqb_spec 2 (2 ^ S (S n))); [tauto|]. reflexivity.
Qed.

(** The loop pairs the rows of the circuit's values with the rows of the observables' values: with separate dictionaries and
    observables without parameters, only the first row is computed. *)
Theorem C52_loop_drops_rows_refuted : forall n op obs vc vo state e t, lens vo = [] -> looped_expectation n op obs vc vo state e = Some t -> length t <= 1.
Proof.
  intros n op obs vc vo state e t Hl H. unfold looped_expectation in H. destruct (negb _); [discriminate|].
  destruct (to_list_of_dicts vc) as [rc|]; [|discriminate]. cbn [obind] in H. unfold to_list_of_dicts in H. rewrite Hl in H. cbn [obind] in H.
  destruct rc as [|r rc]; [injection H as <-; cbn; lia|]. cbn [combine] in H.
  assert (Z : combine rc (@nil vals) = []) by (destruct rc; reflexivity). rewrite Z in H. cbn [map osequence] in H.
  match type of H with obind ?x _ = _ => destruct x; [|discriminate] end. cbn [obind] in H. injection H as <-. cbn. lia.
Qed.

(** * From the block to the numbers *)
Theorem C52_end_to_end : forall set_iter parse_name num_hash is_time merge ident ap solve known gate_level n b v Bv e,
  set_order set_iter -> hash_sign num_hash -> distinct_objects ident -> calls_ok ap ->
  krons_ok b -> no_empty_chain b -> (forall x, In x (gates b) -> convertible set_iter parse_name known num_hash is_time gate_level x) ->
  readable parse_name known gate_level b ->
  1 <= n -> (forall q, In q (qubits b) -> q < n) -> (forall l, In l (sizes v) -> 1 <= l) -> vbatch v = Some Bv ->
  exists op out, backend_circuit set_iter parse_name num_hash is_time merge ident gate_level b = Some (op, gate_level) /\
    run n (fun rho => qden ap solve gate_level known rho op) v None e true = Some out /\ shape out = [Bv; 2 ^ n] /\
    forall k, k < Bv -> rowv n out k = reordered n e (run_vec n (den (vrow v k) b) (zero_vec n)).
Proof.
  intros si pn nh it merge ident ap solve known g n b v Bv e Hs Hh Hid Hap K NE HG HR Hn Hq H1 Hv.
  destruct (C51_circuit si pn nh it merge ident ap solve known g b Hs Hh Hid Hap K NE HG HR) as (op & E & Q).
  destruct (C52_run_default n (fun rho => qden ap solve g known rho op) b v Bv e Hn Hq Q H1 Hv) as (out & R & S & A).
  exists op, out. split; [exact E|]. split; [exact R|]. split; [exact S|exact A].
Qed.

(** * Witnesses *)
(** Two qubits, three rows, values for x; a parametric circuit and a parametric observable. *)
Definition three : vals := Vals [Some 3] (fun k x => INR k).
Definition two_q : block := BChain [BRot RX_ 0 (EVar "x"); BCtrl [0] (BPrim PX 1)].
Definition obs_q : block := BScale (BPrim PZ 1) (EVar "x").
Example C52_run_witness : exists out, run 2 (fun rho => Some (den rho two_q)) three None Little true = Some out /\ shape out = [3; 4] /\
  forall k, k < 3 -> rowv 2 out k = invert_wf 2 (run_vec 2 (den (fun _ => INR k) two_q) (zero_vec 2)).
Proof.
  apply (C52_run_default 2 (fun rho => Some (den rho two_q)) two_q three 3 Little); [lia| |intros rho; reflexivity| |reflexivity].
  - cbn. intros q H. intuition lia.
  - cbn. intros l [<- | []]. lia.
Qed.
Example C52_given_state_witness : exists st, shape st = [1; 2 ^ 2] /\ rowv 2 st 0 = [RtoC 0; RtoC 1; RtoC 0; RtoC 0] /\ starts 2 three (Some st) 1 (rowv 2 st) /\ broadcast 1 3 = Some 3.
Proof.
  exists (Tn [1; 4] (fun i => nth (nth 1 i 0) [RtoC 0; RtoC 1; RtoC 0; RtoC 0] (RtoC 0))). split; [reflexivity|]. split; [reflexivity|]. split; [constructor; reflexivity|reflexivity].
Qed.
Example C52_expectation_witness : batched_expectation 2 (fun rho => Some (den rho two_q)) [fun rho => Some (den rho obs_q)] three three None Little =
  Some (map (fun k => [fst (expval 2 (den (fun _ => INR k) two_q (vec_state 2 (zero_vec 2))) (den (fun _ => INR k) obs_q))]) (seq 0 3)).
Proof.
  rewrite (C52_expectation 2 _ two_q _ [obs_q] three three None 3 (fun _ => zero_vec 2) 3 3 3 3 Little); [reflexivity|right; lia| |intros rho; reflexivity|discriminate| | |constructor|reflexivity..].
  - cbn. intros q H. intuition lia.
  - repeat constructor.
  - intros O q [<- | []] Hq. cbn in Hq. intuition lia.
Qed.
Example C52_looped_witness : looped_expectation 2 (fun rho => Some (den rho two_q)) [fun rho => Some (den rho obs_q)] three three None Little =
  Some (map (fun k => [fst (expval 2 (den (fun _ => INR k) two_q (vec_state 2 (zero_vec 2))) (den (fun _ => INR k) obs_q))]) (seq 0 3)).
Proof.
  rewrite (C52_looped 2 _ two_q _ [obs_q] three None (zero_vec 2) [3] Little); [reflexivity|lia| |intros rho; reflexivity| | |left; split; reflexivity|reflexivity|].
  - cbn. intros q H. intuition lia.
  - repeat constructor.
  - intros O q [<- | []] Hq. cbn in Hq. intuition lia.
  - intros l [<- | []]. right. reflexivity.
Qed.
(** A sampler that only looks at outcomes of the right length: it reports one shot of the all-zero outcome when that has
    positive probability. *)
Example C52_sample_witness n : let draw := fun (k : nat) (f : list bool -> R) => if Rlt_dec 0 (f (repeat false n)) then [(repeat false n, 1)] else [] in
  forall k f g, (forall r, length r = n -> f r = g r) -> draw k f = draw k g.
Proof. intros draw k f g H. unfold draw. rewrite (H (repeat false n)) by apply repeat_length. reflexivity. Qed.
(** One qubit: a batch of three loses a row. *)
Example C52_one_qubit_witness : exists t, batched_expectation 1 (fun rho => Some (den rho (BRot RX_ 0 (EVar "x")))) [fun rho => Some (den rho (BPrim PZ 0))] three (Vals [] (fun _ _ => 0%R)) None Little = Some t /\ length t = 2.
Proof.
  apply (C52_one_qubit_truncated_refuted _ (BRot RX_ 0 (EVar "x")) _ [BPrim PZ 0] three _ None 3 (fun _ => zero_vec 1) 3); [|intros rho; reflexivity|discriminate|repeat constructor| |constructor|reflexivity..].
  - cbn. intros q H. intuition lia.
  - intros O q [<- | []] Hq. cbn in Hq. intuition lia.
Qed.
Example C52_one_qubit_permuted_witness : starts 1 (Vals [Some 4] (fun k x => INR k)) None 4 (fun _ => zero_vec 1) /\ vbatch (Vals [Some 4] (fun k x => INR k)) = Some 4 /\ broadcast 4 4 = Some 4.
Proof. split; [constructor|split; reflexivity]. Qed.
Example C52_pyq_shape_witness : shape (init_state 2 1) = repeat 2 2 ++ [1].
Proof. reflexivity. Qed.
(** Two rows of circuit values and none for the observables: one row. *)
Example C52_loop_drops_rows_witness : exists t, looped_expectation 1 (fun rho => Some (den rho (BRot RX_ 0 (EVar "x")))) [fun rho => Some (den rho (BPrim PZ 0))]
  (Vals [Some 2] (fun k x => INR k)) (Vals [] (fun _ _ => 0%R)) None Big = Some t /\ length t = 1.
Proof. eexists. split; [reflexivity|reflexivity]. Qed.

Print Assumptions C52_layout.
Print Assumptions C52_run.
Print Assumptions C52_run_default.
Print Assumptions C52_expectation.
Print Assumptions C52_looped.
Print Assumptions C52_sample.
Print Assumptions C52_end_to_end.
Print Assumptions C52_one_qubit_truncated_refuted.
Print Assumptions C52_one_qubit_permuted_refuted.
Print Assumptions C52_little_state_refuted.
Print Assumptions C52_pyq_shape_refuted.
Print Assumptions C52_loop_drops_rows_refuted.
