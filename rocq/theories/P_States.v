(** C13: state constructors. *)
From Coq Require Import String Reals List Arith Bool Lia Lra ZArith FunctionalExtensionality Permutation.
From Coquelicot Require Import Coquelicot.
From Coq Require Import List.
From Verif Require Import S_Ops L_Ops S_Sets M_QubitSupport M_Block S_Den L_Den L_Loc L_Adj L_Gates M_BlockOps L_Support L_Tensor P_Invert M_Basis P_Basis M_PSR S_PSR P_PSR P_Dagger S_State L_Inner M_States.
Import ListNotations.
Open Scope R_scope.

(** * Specification *)
(** The vector has 2^n entries and unit norm. *)
Definition unit_vector (n : nat) (v : vec) : Prop := length v = (2 ^ n)%nat /\ rsum (map (fun z => Cmod z ^ 2) v) = 1.
(** Amplitude of the outcome [r] (first bit most significant). *)
Definition amp (v : vec) (r : list bool) : C := nth (bits_to_nat r) v (RtoC 0).
(** Running the block from |0...0> gives the vector. *)
Definition prepares (n : nat) (b : block) (v : vec) : Prop :=
  forall rho r, length r = n -> amps n (den rho b (ket (seq 0 n) (repeat false n))) r = amp v r.

Lemma sq_mod z : sq z = Cmod z ^ 2.
Proof. unfold Cmod, sq. rewrite pow2_sqrt; [reflexivity|]. nra. Qed.
Lemma sum_bits n (f : nat -> R) : rsum (map f (seq 0 (2 ^ n))) = rsum (map (fun r => f (bits_to_nat r)) (bits n)).
Proof. rewrite <- map_bits_seq, map_map. reflexivity. Qed.
Lemma nth_map_seq (f : nat -> C) m k : (k < m)%nat -> nth k (map f (seq 0 m)) (RtoC 0) = f k.
Proof. intros H. rewrite (nth_indep _ _ (f 0%nat)) by (rewrite map_length, seq_length; exact H). rewrite map_nth, seq_nth by exact H. reflexivity. Qed.
Lemma rsum_single {A} (f : A -> R) l a : NoDup l -> In a l -> (forall x, In x l -> x <> a -> f x = 0) -> rsum (map f l) = f a.
Proof.
  induction l as [|x l IH]; intros N I H; [destruct I|]. inversion N as [|? ? Nx Nl]; subst. cbn [map rsum]. destruct I as [<-|I].
  - rewrite rsum_zero; [lra|]. intros y Iy. apply H; [right; exact Iy|]. intros ->. contradiction.
  - rewrite IH; [|exact Nl|exact I|intros y Iy Ny; apply H; [right; exact Iy|exact Ny]]. rewrite (H x (or_introl eq_refl)); [lra|]. intros ->. contradiction.
Qed.
Lemma basis_vec_unit n k : (k < 2 ^ n)%nat -> unit_vector n (basis_vec n k).
Proof.
  intros H. split; [unfold basis_vec; rewrite map_length, seq_length; reflexivity|]. unfold basis_vec. rewrite map_map. rewrite (rsum_single _ _ k).
  - rewrite Nat.eqb_refl, Cmod_1. lra.
  - apply seq_NoDup.
  - apply in_seq. lia.
  - intros x _ N. apply Nat.eqb_neq in N. rewrite N, Cmod_0. lra.
Qed.
Lemma basis_vec_amp n bs r : length bs = n -> length r = n -> amp (basis_vec n (bits_to_nat bs)) r = if eqbits r bs then RtoC 1 else RtoC 0.
Proof.
  intros Hb Hr. unfold amp, basis_vec. rewrite nth_map_seq by (rewrite <- Hr; apply bits_to_nat_lt). rewrite eqb_bits by congruence. reflexivity.
Qed.
Lemma dval_bits_nat bs : dval (map chr bs) = Z.of_nat (bits_to_nat bs).
Proof.
  induction bs as [|b bs IH]; [reflexivity|]. cbn [map dval bits_to_nat]. rewrite IH, map_length. rewrite Nat2Z.inj_add, Nat2Z.inj_mul, Nat2Z.inj_pow. destruct b; reflexivity.
Qed.
Lemma chr_digit bs : Forall is_digit (map chr bs).
Proof. apply Forall_forall. intros c I. apply in_map_iff in I as ([|] & <- & _); discriminate. Qed.
Lemma basis_to_int_bits bs : bs <> [] -> basis_to_int (map chr bs) Big = Some (Z.of_nat (bits_to_nat bs)).
Proof.
  intros N. unfold basis_to_int. destruct bs as [|b bs]; [congruence|]. pose proof (parse_dval _ (chr_digit (b :: bs)) 0%Z) as P. rewrite Z.mul_0_l, Z.add_0_l in P. rewrite dval_bits_nat in P.
  destruct b; exact P.
Qed.
(** The vector of a bit string: amplitude 1 at the string itself (reversed when little-endian), unit norm, one copy per batch entry. *)
Theorem C13_bitstring : forall bs batch e, bs <> [] -> exists v, state_from_bitstring bs batch e = Some (repeat v batch) /\ unit_vector (length bs) v /\
  forall r, length r = length bs -> amp v r = if eqbits r (match e with Big => bs | Little => rev bs end) then RtoC 1 else RtoC 0.
Proof.
  intros bs batch e N. set (b := match e with Big => bs | Little => rev bs end).
  assert (L : length b = length bs) by (destruct e; [reflexivity|apply rev_length]).
  assert (Nb : b <> []) by (intros E; apply N; destruct bs; [reflexivity|rewrite E in L; discriminate]).
  exists (basis_vec (length bs) (bits_to_nat b)). split; [|split].
  - unfold state_from_bitstring. assert (E : basis_to_int (map chr bs) e = Some (Z.of_nat (bits_to_nat b))).
    { destruct e; [apply basis_to_int_bits; exact N|]. unfold basis_to_int. rewrite <- map_rev. apply (basis_to_int_bits (rev bs)). exact Nb. }
    rewrite E. simpl. rewrite Nat2Z.id. reflexivity.
  - apply basis_vec_unit. rewrite <- L. apply bits_to_nat_lt.
  - intros r Hr. apply basis_vec_amp; congruence.
Qed.
Lemma repeat_ne (x : bool) n : (0 < n)%nat -> repeat x n <> [].
Proof. destruct n; [lia|discriminate]. Qed.
Theorem C13_zero_one : forall n batch, (0 < n)%nat ->
  (exists v, zero_state n batch = Some (repeat v batch) /\ unit_vector n v /\ forall r, length r = n -> amp v r = if eqbits r (repeat false n) then RtoC 1 else RtoC 0) /\
  (exists v, one_state n batch = Some (repeat v batch) /\ unit_vector n v /\ forall r, length r = n -> amp v r = if eqbits r (repeat true n) then RtoC 1 else RtoC 0).
Proof.
  intros n batch H. split.
  - destruct (C13_bitstring (repeat false n) batch Big (repeat_ne _ _ H)) as (v & A & B & D). rewrite repeat_length in *. exists v. auto.
  - destruct (C13_bitstring (repeat true n) batch Big (repeat_ne _ _ H)) as (v & A & B & D). rewrite repeat_length in *. exists v. auto.
Qed.
Lemma sqrt2n_pos n : 0 < sqrt (2 ^ n).
Proof. apply sqrt_lt_R0. apply pow_lt. lra. Qed.
Lemma nth_repeat_lt {A} (x d : A) m k : (k < m)%nat -> nth k (repeat x m) d = x.
Proof. intros H. rewrite (nth_indep _ _ x) by (rewrite repeat_length; exact H). apply nth_repeat. Qed.
Lemma rsum_repeat x m : rsum (repeat x m) = INR m * x.
Proof. induction m as [|m IH]; [simpl; lra|]. cbn [repeat rsum]. rewrite IH, S_INR. lra. Qed.
Lemma map_repeat' {A B} (f : A -> B) x m : map f (repeat x m) = repeat (f x) m.
Proof. induction m as [|m IH]; [reflexivity|]. cbn. rewrite IH. reflexivity. Qed.
Theorem C13_uniform : forall n batch, exists v, uniform_state n batch = repeat v batch /\ unit_vector n v /\ forall r, length r = n -> amp v r = RtoC (1 / sqrt (2 ^ n)).
Proof.
  intros n batch. eexists. split; [reflexivity|]. split; [split; [apply repeat_length|]|].
  - rewrite map_repeat', rsum_repeat. rewrite pow_INR. replace (INR 2) with 2 by (simpl; lra). rewrite Cmod_R.
    pose proof (sqrt2n_pos n) as P. rewrite Rabs_pos_eq by (apply Rlt_le, Rdiv_lt_0_compat; lra).
    replace ((1 / sqrt (2 ^ n)) ^ 2) with (/ (sqrt (2 ^ n) * sqrt (2 ^ n))) by (field; lra). rewrite sqrt_sqrt by (apply pow_le; lra). apply Rinv_r. apply pow_nonzero. lra.
  - intros r Hr. unfold amp. apply nth_repeat_lt. rewrite <- Hr. apply bits_to_nat_lt.
Qed.

(** * GHZ vector *)
Lemma vec_amps (f : C -> R) n v : length v = (2 ^ n)%nat -> rsum (map f v) = rsum (map (fun r => f (amp v r)) (bits n)).
Proof.
  intros H. transitivity (rsum (map (fun k => f (nth k v (RtoC 0))) (seq 0 (2 ^ n)))); [|apply (sum_bits n (fun k => f (nth k v (RtoC 0))))]. f_equal.
  apply nth_ext with (d := f (RtoC 0)) (d' := f (RtoC 0)); [rewrite !map_length, seq_length; exact H|].
  intros k Hk. rewrite map_length in Hk. rewrite map_nth. rewrite (nth_indep _ (f (RtoC 0)) (f (nth 0%nat v (RtoC 0)))) by (rewrite map_length, seq_length; lia).
  rewrite (map_nth (fun k => f (nth k v (RtoC 0)))). rewrite seq_nth by lia. reflexivity.
Qed.
Lemma map_combine_repeat {A} (f : vec * vec -> A) x y m : map f (combine (repeat x m) (repeat y m)) = repeat (f (x, y)) m.
Proof. induction m as [|m IH]; [reflexivity|]. cbn. rewrite IH. reflexivity. Qed.
Lemma nth_vadd v w k : length v = length w -> nth k (vadd v w) (RtoC 0) = (nth k v (RtoC 0) + nth k w (RtoC 0))%C.
Proof.
  revert w k. induction v as [|a v IH]; intros [|b w] k H; try discriminate; [destruct k; cbn; ring|]. destruct k; [reflexivity|]. cbn. apply IH. cbn in H. lia.
Qed.
Lemma nth_vscale c v k : nth k (vscale c v) (RtoC 0) = (c * nth k v (RtoC 0))%C.
Proof. revert k. induction v as [|a v IH]; intros [|k]; cbn; try ring. apply IH. Qed.
Lemma eqbits_iff a b : eqbits a b = true <-> a = b.
Proof. unfold eqbits. destruct (list_eq_dec _ a b); split; intros; try assumption; try reflexivity; try discriminate; contradiction. Qed.
Lemma inv_sqrt2_pos : 0 < 1 / sqrt 2.
Proof. apply Rdiv_lt_0_compat; [lra|]. apply sqrt_lt_R0. lra. Qed.
Lemma inv_sqrt2_half : (1 / sqrt 2) ^ 2 = / 2.
Proof. replace ((1 / sqrt 2) ^ 2) with (/ (sqrt 2 * sqrt 2)) by (field; apply Rgt_not_eq, sqrt_lt_R0; lra). rewrite sqrt_sqrt by lra. reflexivity. Qed.
Lemma zeros_ones n : (0 < n)%nat -> repeat false n <> repeat true n.
Proof. destruct n; [lia|discriminate]. Qed.
Theorem C13_ghz : forall n batch, (0 < n)%nat -> exists v, ghz_state n batch = Some (repeat v batch) /\ unit_vector n v /\
  forall r, length r = n -> amp v r = if (eqbits r (repeat false n) || eqbits r (repeat true n))%bool then RtoC (1 / sqrt 2) else RtoC 0.
Proof.
  intros n batch H. destruct (C13_zero_one n batch H) as ((v0 & E0 & (L0 & _) & A0) & (v1 & E1 & (L1 & _) & A1)).
  exists (vscale (RtoC (1 / sqrt 2)) (vadd v0 v1)).
  assert (AA : forall r, length r = n -> amp (vscale (RtoC (1 / sqrt 2)) (vadd v0 v1)) r = if (eqbits r (repeat false n) || eqbits r (repeat true n))%bool then RtoC (1 / sqrt 2) else RtoC 0).
  { intros r Hr. unfold amp. rewrite nth_vscale, nth_vadd by congruence. fold (amp v0 r) (amp v1 r). rewrite A0, A1 by exact Hr.
    destruct (eqbits r (repeat false n)) eqn:E, (eqbits r (repeat true n)) eqn:F; cbn [orb]; try ring.
    apply eqbits_iff in E, F. exfalso. apply (zeros_ones n H). congruence. }
  split; [unfold ghz_state; rewrite E0, E1, map_combine_repeat; reflexivity|]. split; [|exact AA].
  assert (LL : length (vscale (RtoC (1 / sqrt 2)) (vadd v0 v1)) = (2 ^ n)%nat).
  { unfold vscale, vadd. rewrite !map_length, combine_length, L0, L1. lia. }
  split; [exact LL|]. rewrite (vec_amps _ n) by exact LL.
  rewrite (rsum_ext _ (fun r => / 2 * (if eqbits r (repeat false n) then 1 else 0) + / 2 * (if eqbits r (repeat true n) then 1 else 0))).
  - rewrite rsum_plus, !rsum_scal. rewrite (rsum_single (fun r => if eqbits r (repeat false n) then 1 else 0) _ (repeat false n)), (rsum_single (fun r => if eqbits r (repeat true n) then 1 else 0) _ (repeat true n)).
    + rewrite !(proj2 (eqbits_iff _ _)) by reflexivity. lra.
    + apply bits_nodup.
    + apply in_bits_iff, repeat_length.
    + intros x _ N. destruct (eqbits x (repeat true n)) eqn:E; [apply eqbits_iff in E; contradiction|reflexivity].
    + apply bits_nodup.
    + apply in_bits_iff, repeat_length.
    + intros x _ N. destruct (eqbits x (repeat false n)) eqn:E; [apply eqbits_iff in E; contradiction|reflexivity].
  - intros r I. apply in_bits_iff in I. rewrite AA by exact I.
    destruct (eqbits r (repeat false n)) eqn:E, (eqbits r (repeat true n)) eqn:F; cbn [orb].
    + apply eqbits_iff in E, F. exfalso. apply (zeros_ones n H). congruence.
    + rewrite Cmod_R, Rabs_pos_eq by (apply Rlt_le, inv_sqrt2_pos). rewrite inv_sqrt2_half. lra.
    + rewrite Cmod_R, Rabs_pos_eq by (apply Rlt_le, inv_sqrt2_pos). rewrite inv_sqrt2_half. lra.
    + rewrite Cmod_0. lra.
Qed.

(** * Blocks *)
Lemma gate1_eq q m psi x : gate1 q m psi x = (m (x q) false * psi (upd x q false) + m (x q) true * psi (upd x q true))%C.
Proof. unfold gate1, gate. cbn [length bits map app csum upds of_mat2]. ring. Qed.
Fixpoint prodst (f : nat -> bool -> C) (l : list nat) (x : asg) : C := match l with [] => RtoC 1 | q :: l' => (f q (x q) * prodst f l' x)%C end.
Lemma prodst_upd f l x q b : ~ In q l -> prodst f l (upd x q b) = prodst f l x.
Proof. induction l as [|p l IH]; intros N; [reflexivity|]. cbn [prodst]. rewrite IH by (intros I; apply N; right; exact I). rewrite upd_other by (intros ->; apply N; left; reflexivity). reflexivity. Qed.
Definition step (m : nat -> bool -> bool -> C) (f : nat -> bool -> C) (q : nat) (b : bool) : C := (m q b false * f q false + m q b true * f q true)%C.
Lemma gates_prod m f l : NoDup l -> forall F : St, (forall x q b, In q l -> F (upd x q b) = F x) ->
  seqs (map (fun q => gate1 q (m q)) l) (fun x => F x * prodst f l x)%C = (fun x => F x * prodst (step m f) l x)%C.
Proof.
  induction l as [|q l IH]; intros N F H; [reflexivity|]. inversion N as [|? ? Nq Nl]; subst. cbn [map].
  change (seqs (map (fun q => gate1 q (m q)) l) (gate1 q (m q) (fun x => F x * prodst f (q :: l) x)%C) = (fun x => F x * prodst (step m f) (q :: l) x)%C).
  replace (gate1 q (m q) (fun x => F x * prodst f (q :: l) x)%C) with (fun x : asg => (F x * step m f q (x q)) * prodst f l x)%C.
  - rewrite IH; [|exact Nl|].
    + apply functional_extensionality; intros x. cbn [prodst]. ring.
    + intros x p b I. rewrite H by (right; exact I). rewrite upd_other by (intros ->; contradiction). reflexivity.
  - apply functional_extensionality; intros x. rewrite gate1_eq. cbn [prodst]. rewrite !H by (left; reflexivity). rewrite !upd_same, !prodst_upd by exact Nq. unfold step. ring.
Qed.
Lemma ket_prod n x : ket (seq 0 n) (repeat false n) x = prodst (fun _ b => if b then RtoC 0 else RtoC 1) (seq 0 n) x.
Proof.
  unfold ket. generalize 0%nat. induction n as [|n IH]; intros s; [reflexivity|]. cbn [seq map repeat prodst]. rewrite <- IH. unfold eqbits.
  destruct (x s); [destruct (list_eq_dec _ _ _) as [E|E]; [discriminate|ring]|].
  destruct (list_eq_dec Bool.bool_dec (false :: map x (seq (S s) n)) (false :: repeat false n)) as [E|E], (list_eq_dec Bool.bool_dec (map x (seq (S s) n)) (repeat false n)) as [F|F]; try ring; exfalso; congruence.
Qed.
Lemma prodst_ext f g l x : (forall q, In q l -> f q (x q) = g q (x q)) -> prodst f l x = prodst g l x.
Proof. induction l as [|q l IH]; intros H; [reflexivity|]. cbn [prodst]. rewrite IH, H; [reflexivity|left; reflexivity|intros p I; apply H; right; exact I]. Qed.
(** A layer of one single-qubit gate per qubit on |0...0>. *)
Lemma layer n (m : nat -> bool -> bool -> C) r : length r = n ->
  amps n (seqs (map (fun q => gate1 q (m q)) (seq 0 n)) (ket (seq 0 n) (repeat false n))) r = prodst (fun q b => m q b false) (seq 0 n) (fun q => nth q r false).
Proof.
  intros Hr. replace (ket (seq 0 n) (repeat false n)) with (fun x : asg => RtoC 1 * prodst (fun _ b => if b then RtoC 0 else RtoC 1) (seq 0 n) x)%C by (apply functional_extensionality; intros x; rewrite ket_prod; ring).
  unfold amps. rewrite (gates_prod m (fun _ b => if b then RtoC 0 else RtoC 1) (seq 0 n) (seq_NoDup _ _) (fun _ => RtoC 1)) by reflexivity.
  rewrite Cmult_1_l. transitivity (prodst (fun q b => m q b false) (seq 0 n) (upds zeros (seq 0 n) r)).
  - apply prodst_ext. intros q _. unfold step. ring.
  - assert (G : forall l, (forall q, In q l -> (q < n)%nat) -> prodst (fun q b => m q b false) l (upds zeros (seq 0 n) r) = prodst (fun q b => m q b false) l (fun q => nth q r false)).
    { induction l as [|q l IH]; intros H; [reflexivity|]. cbn [prodst]. rewrite amps_bit by (try exact Hr; apply H; left; reflexivity). rewrite IH; [reflexivity|]. intros p I. apply H. right. exact I. }
    apply G. intros q I. apply in_seq in I. lia.
Qed.
Lemma kron_layer si (Hs : set_order si) (op : nat -> prim) n : (0 < n)%nat ->
  mk_kron si (map (fun q => BPrim (op q) q) (seq 0 n)) = Some (BKron (map (fun q => BPrim (op q) q) (seq 0 n))) /\
  forall rho, den rho (BKron (map (fun q => BPrim (op q) q) (seq 0 n))) = seqs (map (fun q => gate1 q (prim_mat (op q))) (seq 0 n)).
Proof.
  intros H. split.
  - apply (proj2 (proj1 (mk_kron_spec si Hs _))). split; [destruct n; [lia|discriminate]|].
    generalize (seq_NoDup n 0). generalize (seq 0 n). induction l as [|q l IH]; intros N; [constructor|]. inversion N as [|? ? Nq Nl]; subst. cbn [map]. constructor; [|apply IH; exact Nl].
    apply Forall_forall. intros b I. apply in_map_iff in I as (p & <- & I). intros k K1 K2. cbn in K1, K2. destruct K1 as [<-|[]], K2 as [<-|[]]. contradiction.
  - intros rho. rewrite den_kron, dchain_seqs, map_map. reflexivity.
Qed.
Lemma combine_seq (bs : list bool) : forall s, combine (seq s (length bs)) bs = map (fun q => (q, nth (q - s) bs false)) (seq s (length bs)).
Proof.
  induction bs as [|b bs IH]; intros s; [reflexivity|]. cbn [length seq combine map]. rewrite Nat.sub_diag. cbn [nth]. f_equal. rewrite IH. apply map_ext_in. intros q I. apply in_seq in I.
  replace (q - s)%nat with (S (q - S s))%nat by lia. reflexivity.
Qed.
Lemma prod_match (bs : list bool) : forall s r, length r = length bs ->
  prodst (fun q b => prim_mat (if nth (q - s) bs false then PX else PI_) b false) (seq s (length bs)) (fun q => nth (q - s) r false) = if eqbits r bs then RtoC 1 else RtoC 0.
Proof.
  induction bs as [|b bs IH]; intros s [|a r] H; try discriminate; [reflexivity|]. cbn [length seq prodst]. rewrite Nat.sub_diag. cbn [nth].
  assert (G : forall l, (forall q, In q l -> (s < q)%nat) -> prodst (fun q c => prim_mat (if nth (q - s) (b :: bs) false then PX else PI_) c false) l (fun q => nth (q - s) (a :: r) false) =
     prodst (fun q c => prim_mat (if nth (q - S s) bs false then PX else PI_) c false) l (fun q => nth (q - S s) r false)).
  { induction l as [|q l IHl]; intros Hl; [reflexivity|]. cbn [prodst]. rewrite IHl by (intros p I; apply Hl; right; exact I). specialize (Hl q (or_introl eq_refl)). replace (q - s)%nat with (S (q - S s))%nat by lia. reflexivity. }
  rewrite G by (intros q I; apply in_seq in I; lia). rewrite IH by (cbn in H; lia). unfold eqbits.
  destruct (list_eq_dec Bool.bool_dec (a :: r) (b :: bs)) as [E|E], (list_eq_dec Bool.bool_dec r bs) as [F|F]; destruct a, b; cbn [prim_mat mat2]; try ring; try (exfalso; congruence).
Qed.
(** [product_block(bs)] prepares |bs>. *)
Theorem C13_product_block : forall si bs, set_order si -> bs <> [] ->
  exists b v, product_block si bs = Some b /\ state_from_bitstring bs 1 Big = Some [v] /\ prepares (length bs) b v.
Proof.
  intros si bs Hs N. destruct (C13_bitstring bs 1 Big N) as (v & E & _ & A). assert (P : (0 < length bs)%nat) by (destruct bs; [congruence|cbn; lia]).
  destruct (kron_layer si Hs (fun q => if nth q bs false then PX else PI_) (length bs) P) as [K D].
  exists (BKron (map (fun q => BPrim (if nth q bs false then PX else PI_) q) (seq 0 (length bs)))), v. split; [|split; [exact E|]].
  - unfold product_block. rewrite combine_seq, map_map. rewrite <- K. f_equal. apply map_ext_in. intros q I. cbn [fst snd]. rewrite Nat.sub_0_r. reflexivity.
  - intros rho r Hr. rewrite D, layer by exact Hr. rewrite A by exact Hr. rewrite <- (prod_match bs 0 r Hr).
    assert (G : forall l, prodst (fun q b => prim_mat (if nth q bs false then PX else PI_) b false) l (fun q => nth q r false) = prodst (fun q b => prim_mat (if nth (q - 0) bs false then PX else PI_) b false) l (fun q => nth (q - 0) r false)).
    { induction l as [|q l IH]; [reflexivity|]. cbn [prodst]. rewrite IH, Nat.sub_0_r. reflexivity. }
    apply G.
Qed.
Lemma nth_repeat_seq (x : bool) n q : (q < n)%nat -> nth q (repeat x n) false = x.
Proof. apply nth_repeat_lt. Qed.
Lemma from_op_product si n (p : bool) : from_op si (if p then PX else PI_) n = product_block si (repeat p n).
Proof.
  unfold from_op, product_block. f_equal. rewrite combine_seq, map_map, repeat_length. apply map_ext_in. intros q I. apply in_seq in I. cbn [fst snd]. rewrite Nat.sub_0_r, nth_repeat_seq by lia. reflexivity.
Qed.
Lemma h_powers n : (RtoC (1 / sqrt (2 ^ S n)) = / RtoC (sqrt 2) * RtoC (1 / sqrt (2 ^ n)))%C.
Proof. rewrite <- RtoC_inv by (apply Rgt_not_eq, sqrt_lt_R0; lra). rewrite <- RtoC_mult. f_equal. cbn [pow]. rewrite sqrt_mult by (try lra; apply pow_le; lra). field. split; apply Rgt_not_eq; [apply sqrt2n_pos|apply sqrt_lt_R0; lra]. Qed.
(** The zero, one and uniform blocks prepare the vectors of the same names. *)
Theorem C13_blocks : forall si n, set_order si -> (0 < n)%nat ->
  (exists b v, zero_block si n = Some b /\ zero_state n 1 = Some [v] /\ prepares n b v) /\
  (exists b v, one_block si n = Some b /\ one_state n 1 = Some [v] /\ prepares n b v) /\
  (exists b v, uniform_block si n = Some b /\ uniform_state n 1 = [v] /\ prepares n b v).
Proof.
  intros si n Hs H. split; [|split].
  - destruct (C13_product_block si (repeat false n) Hs (repeat_ne _ _ H)) as (b & v & A & B & D). rewrite repeat_length in D. exists b, v. split; [|auto]. unfold zero_block. rewrite <- A. apply (from_op_product si n false).
  - destruct (C13_product_block si (repeat true n) Hs (repeat_ne _ _ H)) as (b & v & A & B & D). rewrite repeat_length in D. exists b, v. split; [|auto]. unfold one_block. rewrite <- A. apply (from_op_product si n true).
  - destruct (kron_layer si Hs (fun _ => PH) n H) as [K D]. destruct (C13_uniform n 1) as (v & E & _ & A). exists (BKron (map (fun q => BPrim PH q) (seq 0 n))), v. split; [exact K|]. split; [exact E|].
    intros rho r Hr. rewrite D, layer by exact Hr. rewrite A by exact Hr. clear. generalize 0%nat at 1 as s. induction n as [|n IH]; intros s; [cbn; rewrite sqrt_1; f_equal; lra|].
    cbn [seq prodst]. rewrite IH, h_powers. f_equal. destruct (nth s r false); cbn [prim_mat mat2]; try reflexivity.
Qed.

(** * GHZ block *)
Definition ghz_at (n k : nat) : St := fun x =>
  if (forallb (fun i => Bool.eqb (x i) (x 0%nat)) (seq 1 k) && forallb (fun i => negb (x i)) (seq (S k) (n - 1 - k)))%bool then RtoC (1 / sqrt 2) else RtoC 0.
Lemma forallb_upd (g : asg -> nat -> bool) l x q c : (forall i, In i l -> g (upd x q c) i = g x i) -> forallb (g (upd x q c)) l = forallb (g x) l.
Proof. induction l as [|i l IH]; intros H; [reflexivity|]. cbn. rewrite H by (left; reflexivity). rewrite IH by (intros j I; apply H; right; exact I). reflexivity. Qed.
Lemma cnot_eq a b psi x : ctrlop [a] (gate1 b (prim_mat PX)) psi x = if x a then psi (upd x b (negb (x b))) else psi x.
Proof. unfold ctrlop. cbn [forallb]. destruct (x a); [|reflexivity]. cbn [andb]. rewrite gate1_eq. destruct (x b); cbn [prim_mat mat2 negb]; ring. Qed.
Lemma last_forall (x : asg) k : forallb (fun i => Bool.eqb (x i) (x 0%nat)) (seq 1 k) = true -> x k = x 0%nat.
Proof. destruct k; [reflexivity|]. intros H. rewrite forallb_forall in H. apply eqb_prop. apply H. apply in_seq. lia. Qed.
Lemma ghz_step n k : (S k < n)%nat -> ctrlop [k] (gate1 (S k) (prim_mat PX)) (ghz_at n k) = ghz_at n (S k).
Proof.
  intros H. apply functional_extensionality; intros x. rewrite cnot_eq. unfold ghz_at.
  rewrite (forallb_upd (fun x i => Bool.eqb (x i) (x 0%nat))) by (intros i I; apply in_seq in I; rewrite !upd_other by lia; reflexivity).
  rewrite (seq_S k 1), forallb_app. change (1 + k)%nat with (S k).
  replace (n - 1 - k)%nat with (S (n - 1 - S k)) by lia. cbn [seq forallb].
  rewrite (forallb_upd (fun x i => negb (x i))) by (intros i I; apply in_seq in I; rewrite !upd_other by lia; reflexivity). rewrite upd_same, negb_involutive.
  destruct (forallb (fun i => Bool.eqb (x i) (x 0%nat)) (seq 1 k)) eqn:E; cbn [andb]; [|destruct (x k); reflexivity].
  apply last_forall in E. rewrite <- E. destruct (x k), (x (S k)); cbn [negb Bool.eqb andb]; reflexivity.
Qed.
Lemma ghz_first n : (0 < n)%nat -> gate1 0 (prim_mat PH) (ket (seq 0 n) (repeat false n)) = ghz_at n 0.
Proof.
  intros H. destruct n as [|n]; [lia|]. apply functional_extensionality; intros x. rewrite gate1_eq, !ket_prod. cbn [seq prodst]. rewrite !upd_same, !prodst_upd by (intros I; apply in_seq in I; lia).
  unfold ghz_at. cbn [seq forallb andb]. replace (S n - 1 - 0)%nat with n by lia.
  assert (G : forall s, prodst (fun _ b => if b then RtoC 0 else RtoC 1) (seq s n) x = if forallb (fun i => negb (x i)) (seq s n) then RtoC 1 else RtoC 0).
  { clear. induction n as [|n IH]; intros s; [reflexivity|]. cbn [seq prodst forallb]. rewrite IH. destruct (x s), (forallb (fun i => negb (x i)) (seq (S s) n)); cbn [negb andb]; ring. }
  rewrite G. assert (Hh : (RtoC (1 / sqrt 2) = / RtoC (sqrt 2))%C) by (rewrite <- RtoC_inv by (apply Rgt_not_eq, sqrt_lt_R0; lra); f_equal; field; apply Rgt_not_eq, sqrt_lt_R0; lra).
  rewrite Hh. destruct (x 0%nat), (forallb (fun i => negb (x i)) (seq 1 n)); cbn [prim_mat mat2]; ring.
Qed.
Lemma ghz_run n k : (k < n)%nat -> seqs (map (fun i => ctrlop [i - 1]%nat (gate1 i (prim_mat PX))) (seq 1 k)) (ghz_at n 0) = ghz_at n k.
Proof.
  induction k as [|k IH]; intros H; [reflexivity|]. rewrite seq_S, map_app, seqs_app. unfold seqop at 1. rewrite IH by lia. cbn [map]. replace (1 + k - 1)%nat with k by lia. cbn [seqs fold_right]. apply ghz_step. lia.
Qed.
Lemma all_same n r : length r = S n -> forallb (fun i => Bool.eqb (nth i r false) (nth 0 r false)) (seq 1 n) = (eqbits r (repeat false (S n)) || eqbits r (repeat true (S n)))%bool.
Proof.
  intros H. destruct r as [|a r]; [discriminate|]. cbn in H. injection H as H. apply eq_true_iff_eq. rewrite orb_true_iff, !eqbits_iff, forallb_forall. cbn [nth].
  split.
  - intros F. assert (E : a :: r = repeat a (S n)).
    { apply nth_ext with (d := false) (d' := false); [cbn; rewrite repeat_length; lia|]. intros i Hi. cbn [length] in Hi. rewrite nth_repeat_lt by lia. destruct i; [reflexivity|]. apply eqb_prop. exact (F (S i) (proj2 (in_seq _ _ _) (ltac:(lia) : (1 <= S i < 1 + n)%nat))). }
    destruct a; auto.
  - intros [E|E] i I; apply in_seq in I; change (match i with 0%nat => a | S m => nth m r false end) with (nth i (a :: r) false); rewrite E, nth_repeat_lt by lia; cbn [repeat] in E; injection E as -> _; reflexivity.
Qed.
Theorem C13_ghz_block : forall n, (0 < n)%nat -> exists v, ghz_state n 1 = Some [v] /\ prepares n (ghz_block n) v.
Proof.
  intros n H. destruct (C13_ghz n 1 H) as (v & E & _ & A). exists v. split; [exact E|]. intros rho r Hr. rewrite A by exact Hr. unfold ghz_block.
  assert (D : den rho (BChain [BPrim PH 0%nat; BChain (map (fun i => BCtrl [i - 1]%nat (BPrim PX i)) (seq 1 (n - 1)))]) (ket (seq 0 n) (repeat false n)) = ghz_at n (n - 1)).
  { rewrite den_chain, dchain_seqs.
    change (seqs (map (den rho) [BPrim PH 0%nat; BChain (map (fun i => BCtrl [i - 1]%nat (BPrim PX i)) (seq 1 (n - 1)))]) (ket (seq 0 n) (repeat false n)))
      with (den rho (BChain (map (fun i => BCtrl [i - 1]%nat (BPrim PX i)) (seq 1 (n - 1)))) (gate1 0 (prim_mat PH) (ket (seq 0 n) (repeat false n)))).
    rewrite den_chain, dchain_seqs, map_map. cbn [den]. rewrite ghz_first by exact H. apply ghz_run. lia. }
  rewrite D. unfold amps, ghz_at. rewrite Nat.sub_diag. cbn [seq forallb]. rewrite andb_true_r. destruct n as [|n]; [lia|]. rewrite <- all_same by exact Hr. cbn [Nat.sub]. rewrite Nat.sub_0_r.
  assert (F : forall l, (forall i, In i l -> (i < S n)%nat) -> forallb (fun i => Bool.eqb (upds zeros (seq 0 (S n)) r i) (upds zeros (seq 0 (S n)) r 0%nat)) l = forallb (fun i => Bool.eqb (nth i r false) (nth 0 r false)) l).
  { induction l as [|i l IH]; intros Hl; [reflexivity|]. cbn [forallb]. rewrite IH by (intros j I; apply Hl; right; exact I). rewrite !amps_bit by (try exact Hr; try lia; apply Hl; left; reflexivity). reflexivity. }
  rewrite F by (intros i I; apply in_seq in I; lia). reflexivity.
Qed.

(** * Normalisation, probabilities and density matrices *)
Definition norm2 (v : vec) : R := rsum (map (fun z => Cmod z ^ 2) v).
Lemma norm2_sq v : rsum (map sq v) = norm2 v.
Proof. unfold norm2. f_equal. apply map_ext. intros z. apply sq_mod. Qed.
Lemma norm2_nonneg v : 0 <= norm2 v.
Proof. unfold norm2. induction v as [|z v IH]; cbn [map rsum]; [lra|]. pose proof (pow2_ge_0 (Cmod z)). lra. Qed.
Lemma norm2_zero v : norm2 v = 0 -> Forall (fun z => z = RtoC 0) v.
Proof.
  induction v as [|z v IH]; intros H; [constructor|]. change (norm2 (z :: v)) with (Cmod z ^ 2 + norm2 v) in H. pose proof (norm2_nonneg v). pose proof (pow2_ge_0 (Cmod z)).
  constructor; [|apply IH; lra]. apply Cmod_eq_0. nra.
Qed.
Lemma norm2_scale (c : R) v : norm2 (map (fun z => (RtoC c * z)%C) v) = c ^ 2 * norm2 v.
Proof. unfold norm2. rewrite map_map, <- rsum_scal. f_equal. apply map_ext. intros z. rewrite Cmod_mult, Cmod_R, Rpow_mult_distr, pow2_abs. reflexivity. Qed.
(** Every vector with a non-zero entry is rescaled by one positive factor to unit norm. *)
Theorem C13_normalize : forall v, Exists (fun z => z <> RtoC 0) v ->
  norm2 (normalize v) = 1 /\ exists k, 0 < k /\ normalize v = map (fun z => (RtoC k * z)%C) v.
Proof.
  intros v H. assert (P : 0 < norm2 v).
  { destruct (Rle_lt_or_eq_dec _ _ (norm2_nonneg v)) as [L|E]; [exact L|]. symmetry in E. apply norm2_zero in E. exfalso. apply Exists_exists in H as (z & I & N). rewrite Forall_forall in E. apply N, E, I. }
  assert (S : 0 < sqrt (norm2 v)) by (apply sqrt_lt_R0; exact P).
  assert (E : normalize v = map (fun z => (RtoC (/ sqrt (norm2 v)) * z)%C) v).
  { unfold normalize. rewrite norm2_sq. apply map_ext. intros z. rewrite RtoC_inv by lra. unfold Cdiv. ring. }
  split; [|exists (/ sqrt (norm2 v)); split; [apply Rinv_0_lt_compat, S|exact E]].
  rewrite E, norm2_scale. rewrite <- (pow2_sqrt (norm2 v)) at 2 by lra. field. lra.
Qed.
(** The check accepts a batch exactly when every squared norm is within the tolerance of 1. *)
Theorem C13_is_normalized : forall vs atol, is_normalized vs atol = true <-> forall v, In v vs -> Rabs (norm2 v - 1) <= atol.
Proof.
  intros vs atol. unfold is_normalized. rewrite forallb_forall. split; intros H v I; specialize (H v I).
  - rewrite norm2_sq in H. destruct (Rle_dec _ _); [assumption|discriminate].
  - rewrite norm2_sq. destruct (Rle_dec _ _); [reflexivity|contradiction].
Qed.
(** [pmf]: the probability of each outcome is its squared amplitude (of the normalised vector), and they sum to 1. *)
Theorem C13_pmf : forall v, Exists (fun z => z <> RtoC 0) v ->
  pmf v = map (fun z => Cmod z ^ 2) (normalize v) /\ rsum (pmf v) = 1 /\ (norm2 v = 1 -> pmf v = map (fun z => Cmod z ^ 2) v).
Proof.
  intros v H. assert (W : map (fun z => Cmod (z * z)%C) v = map (fun z => Cmod z ^ 2) v) by (apply map_ext; intros z; rewrite Cmod_mult; ring).
  assert (P : 0 < norm2 v).
  { destruct (Rle_lt_or_eq_dec _ _ (norm2_nonneg v)) as [L|E]; [exact L|]. symmetry in E. apply norm2_zero in E. exfalso. apply Exists_exists in H as (z & I & N). rewrite Forall_forall in E. apply N, E, I. }
  assert (Q : pmf v = map (fun z => Cmod z ^ 2 / norm2 v) v) by (unfold pmf; rewrite W, map_map; reflexivity).
  assert (S : 0 < sqrt (norm2 v)) by (apply sqrt_lt_R0; exact P).
  assert (E : pmf v = map (fun z => Cmod z ^ 2) (normalize v)).
  { rewrite Q. unfold normalize. rewrite norm2_sq, map_map. apply map_ext. intros z. rewrite Cmod_div by (intros Z; apply RtoC_inj in Z; lra). rewrite Cmod_R, Rabs_pos_eq by lra.
    rewrite <- (pow2_sqrt (norm2 v)) at 1 by lra. field. lra. }
  split; [exact E|]. split; [rewrite E; apply (proj1 (C13_normalize v H))|]. intros N. rewrite Q, N. apply map_ext. intros z. field.
Qed.
(** The density matrix is Hermitian with trace equal to the squared norm. *)
Theorem C13_density : forall v, (forall i j, density_mat v i j = Cconj (density_mat v j i)) /\ csum (fun i => density_mat v i i) (seq 0 (length v)) = RtoC (norm2 v).
Proof.
  intros v. split.
  - intros i j. unfold density_mat. apply Ceq; unfold Cmult, Cconj; simpl; ring.
  - assert (G : forall s w, csum (fun i => (nth (i - s) w (RtoC 0) * Cconj (nth (i - s) w (RtoC 0)))%C) (seq s (length w)) = RtoC (norm2 w)).
    { intros s w. revert s. induction w as [|z w IH]; intros s; [reflexivity|]. cbn [length seq csum]. rewrite Nat.sub_diag. cbn [nth].
      rewrite (csum_ext _ (fun i => (nth (i - S s) w (RtoC 0) * Cconj (nth (i - S s) w (RtoC 0)))%C)); [rewrite IH|].
      - change (norm2 (z :: w)) with (Cmod z ^ 2 + norm2 w). rewrite RtoC_plus. f_equal. rewrite <- sq_mod. unfold sq. apply Ceq; unfold Cmult, Cconj; simpl; ring.
      - intros i I. apply in_seq in I. replace (i - s)%nat with (S (i - S s))%nat by lia. reflexivity. }
    rewrite <- (G 0%nat v). apply csum_ext. intros i _. unfold density_mat. rewrite Nat.sub_0_r. reflexivity.
Qed.

(** * Random states: every draw gives a unit vector *)
Lemma cis_mod t : Cmod (cis t) = 1.
Proof. unfold Cmod, cis. simpl fst; simpl snd. replace (cos t ^ 2 + sin t ^ 2) with 1; [apply sqrt_1|]. pose proof (sin2_cos2 t). unfold Rsqr in *. lra. Qed.
Theorem C13_random_haar : forall xs phases, length phases = length xs -> Forall (fun x => 0 <= x) xs -> 0 < rsum xs ->
  length (rand_haar_fast xs phases) = length xs /\ norm2 (rand_haar_fast xs phases) = 1.
Proof.
  intros xs phases L F P. unfold rand_haar_fast. split; [rewrite map_length, combine_length; lia|].
  unfold norm2. rewrite map_map. rewrite (rsum_ext _ (fun p => / rsum xs * fst p)).
  - rewrite rsum_scal. replace (map fst (combine xs phases)) with xs; [apply Rinv_l; lra|]. clear F P. revert phases L. induction xs as [|x xs IH]; intros [|t ts] L; try discriminate; [reflexivity|]. cbn. rewrite <- IH by (cbn in L; lia). reflexivity.
  - intros [x t] I. apply in_combine_l in I. rewrite Forall_forall in F. specialize (F x I). cbn [fst snd]. rewrite Cmod_mult, cis_mod, Cmod_R, Rmult_1_r, pow2_abs. rewrite pow2_sqrt; [field; lra|]. apply Rmult_le_pos; [exact F|]. apply Rlt_le, Rinv_0_lt_compat, P.
Qed.
Theorem C13_random_product : forall n positions, Forall (fun k => (k < 2 ^ n)%nat) positions -> Forall (unit_vector n) (rand_product_state n positions).
Proof. intros n ps F. unfold rand_product_state. apply Forall_map. eapply Forall_impl; [|exact F]. intros k. apply basis_vec_unit. Qed.
Lemma rot_unitary n r t q : (q < n)%nat -> unitary_on n (gate1 q (rot_mat r t)).
Proof.
  intros H. apply unitary_gate1; [exact H|]. intros a b. rewrite <- (rot_0 r a b). replace 0 with (t + - t) at 1 by lra. rewrite <- rot_mul. unfold mmul. rewrite !rot_adj. reflexivity.
Qed.
(** Any sequence of drawn rotations, one per qubit, keeps the norm. *)
Theorem C13_random_rotations : forall draws rho phi psi, inner (length draws) (den rho (random_rotations draws) phi) (den rho (random_rotations draws) psi) = inner (length draws) phi psi.
Proof.
  intros draws rho phi psi. apply unitary_inner. unfold random_rotations. rewrite den_chain, dchain_seqs, map_map. apply unitary_seqs. apply Forall_map, Forall_forall. intros [i [r t]] I. apply in_combine_l, in_seq in I. cbn [den fst snd]. apply rot_unitary. lia.
Qed.

(** * Findings *)
(** No qubits: the vector constructors and the Kronecker blocks raise, the GHZ block still acts on qubit 0. *)
Theorem C13_empty_refuted : (forall batch e, state_from_bitstring [] batch e = None) /\ (forall batch, ghz_state 0 batch = None) /\
  (forall si, product_block si [] = None /\ zero_block si 0 = None /\ one_block si 0 = None /\ uniform_block si 0 = None) /\ qubits (ghz_block 0) = [0%nat].
Proof. repeat split; destruct e; reflexivity. Qed.

(** * Instances *)
Example C13_ex_bitstring : exists v, state_from_bitstring [true; false; true] 2 Little = Some [v; v] /\ amp v [true; false; true] = RtoC 1.
Proof. destruct (C13_bitstring [true; false; true] 2 Little) as (v & A & _ & B); [discriminate|]. exists v. split; [exact A|]. rewrite B by reflexivity. reflexivity. Qed.
Example C13_ex_ghz : exists v, ghz_state 3 1 = Some [v] /\ amp v [true; true; true] = RtoC (1 / sqrt 2) /\ amp v [true; false; true] = RtoC 0.
Proof. destruct (C13_ghz 3 1) as (v & A & _ & B); [lia|]. exists v. split; [exact A|]. rewrite !B by reflexivity. split; reflexivity. Qed.
Example C13_ex_normalize : Exists (fun z => z <> RtoC 0) [RtoC 0; RtoC 3].
Proof. right. left. intros H. apply RtoC_inj in H. lra. Qed.
Example C13_ex_haar : Forall (fun x => 0 <= x) [1; 2] /\ 0 < rsum [1; 2].
Proof. split; [repeat constructor; lra|simpl; lra]. Qed.
Print Assumptions C13_bitstring.
Print Assumptions C13_zero_one.
Print Assumptions C13_uniform.
Print Assumptions C13_ghz.
Print Assumptions C13_product_block.
Print Assumptions C13_blocks.
Print Assumptions C13_ghz_block.
Print Assumptions C13_normalize.
Print Assumptions C13_is_normalized.
Print Assumptions C13_pmf.
Print Assumptions C13_density.
Print Assumptions C13_random_haar.
Print Assumptions C13_random_product.
Print Assumptions C13_random_rotations.
Print Assumptions C13_empty_refuted.
