(** C16, continued: the sample budget of classical shadows and the accuracy it buys. *)
From Coq Require Import String Reals ZArith List Arith Bool Lia Lra FunctionalExtensionality Permutation Sorted.
From Coquelicot Require Import Coquelicot.
From Coq Require Import List.
From Verif Require Import S_Sets S_Ops L_Ops M_QubitSupport M_Block S_Den L_Den L_Loc L_Adj L_Gates M_BlockOps L_Support M_Transpile L_Transpile M_PSR S_PSR P_PSR P_Dagger S_State L_Inner M_Pauli P_Pauli M_Measure P_Measure P_Tomography P_Hea P_Overlap P_Daqc L_Exp M_Shadow P_Shadow.
Import ListNotations.
Open Scope nat_scope.
Open Scope R_scope.

(** * Specification *)
(** The probability of an event of the outcomes of independent shots. *)
Definition probability (n : nat) (ps : list (list bool -> R)) (event : list (list bool) -> bool) : R :=
  expect n ps (fun bs => if event bs then 1 else 0).
(** [v] misses [w] by more than [eps]. *)
Definition misses (v w eps : R) : bool := if Rlt_dec eps (Rabs (v - w)) then true else false.
(** The number of rows of a list that measure a string. *)
Definition measured (ops : list (prim * nat)) (ids : list (list nat)) : nat := List.length (filter (fits ops) ids).

(** * Rounding *)
Lemma rint_near x : Rabs (IZR (rint x) - x) <= 1 / 2.
Proof.
  unfold rint. destruct (base_Int_part x) as [A B]. set (z := Int_part x) in *. unfold Rabs.
  destruct (Rlt_dec (x - IZR z) (1 / 2)); [destruct (Rcase_abs _); lra|]. destruct (Rlt_dec (1 / 2) (x - IZR z)); [rewrite plus_IZR; destruct (Rcase_abs _); lra|].
  destruct (Z.even z); [|rewrite plus_IZR]; destruct (Rcase_abs _); lra.
Qed.
(** The number of rows is 34 3^w / accuracy^2 and the number of groups is 2 ln (2 M / confidence), both rounded; M is the number of
    observables and w the largest number of letters other than the identity in a term of them. *)
Theorem C16_samples : forall n os accuracy confidence, os <> [] -> (forall o, In o os -> unroll_block_with_scaling o <> [] /\ forall tc, In tc (unroll_block_with_scaling o) -> exists ops, is_string n (fst tc) ops) ->
  exists N K w, number_of_samples os accuracy confidence = Some (N, K) /\
    Rabs (IZR N - 34 * 3 ^ w / accuracy ^ 2) <= 1 / 2 /\ Rabs (IZR K - 2 * ln (2 * INR (List.length os) / confidence)) <= 1 / 2 /\
    (exists o tc ops, In o os /\ In tc (unroll_block_with_scaling o) /\ is_string n (fst tc) ops /\ weight ops = w) /\
    forall o tc ops, In o os -> In tc (unroll_block_with_scaling o) -> is_string n (fst tc) ops -> (weight ops <= w)%nat.
Proof.
  intros n os a c No H. destruct (C16_weight n os No H) as (w & E & X & M). unfold number_of_samples. rewrite E. cbn [option_map].
  eexists. eexists. exists w. split; [reflexivity|]. split; [|split; [apply rint_near|split; [exact X|exact M]]].
  pose proof (rint_near (3 ^ w * 34 / a ^ 2)) as R. replace (34 * 3 ^ w / a ^ 2) with (3 ^ w * 34 / a ^ 2) by (unfold Rdiv; ring). exact R.
Qed.
Lemma rint_is x z : IZR z - 1 / 2 < x < IZR z + 1 / 2 -> rint x = z.
Proof.
  intros H. pose proof (rint_near x) as R. revert R. generalize (rint x). intros y R. assert (B : Rabs (IZR y - x) <= 1 / 2) by exact R.
  assert (B1 : IZR y < IZR (z + 1)) by (rewrite plus_IZR; unfold Rabs in B; destruct (Rcase_abs _); lra). assert (B2 : IZR (z - 1) < IZR y) by (rewrite minus_IZR; unfold Rabs in B; destruct (Rcase_abs _); lra). apply lt_IZR in B1. apply lt_IZR in B2. lia.
Qed.
Example C16_samples_ex : exists K, number_of_samples [product [(PX, 0%nat); (PI_, 1%nat); (PZ, 2%nat)]] 1 1 = Some (306%Z, K).
Proof.
  unfold number_of_samples. assert (E2 : maximal_weight [product [(PX, 0%nat); (PI_, 1%nat); (PZ, 2%nat)]] = Some 2%nat) by reflexivity. rewrite E2. cbn [option_map]. rewrite (rint_is (3 ^ 2 * 34 / 1 ^ 2) 306) by (split; lra). eexists. reflexivity.
Qed.

(** * The spread of a group estimate *)
Definition nonneg (p : list bool -> R) : Prop := forall s, 0 <= p s.
Lemma expect_le n ps f g : Forall nonneg ps -> (forall bs, List.length bs = List.length ps -> strings_ok n bs -> f bs <= g bs) -> expect n ps f <= expect n ps g.
Proof.
  intros F. revert f g. induction F as [|p ps Hp F IH]; intros f g H; cbn [expect]; [apply H; [reflexivity|intros s []]|].
  assert (S : forall l, (forall b, In b l -> List.length b = n) -> rsum (map (fun b => p b * expect n ps (fun bs => f (b :: bs))) l) <= rsum (map (fun b => p b * expect n ps (fun bs => g (b :: bs))) l)).
  { induction l as [|b l IHl]; intros L; cbn [map rsum]; [lra|]. apply Rplus_le_compat; [|apply IHl; intros b' I; apply L; right; exact I]. apply Rmult_le_compat_l; [apply Hp|]. apply IH. intros bs L' S. apply H; [cbn; rewrite L'; reflexivity|].
    intros s [<- | I]; [apply L; left; reflexivity|exact (S s I)]. }
  apply S. intros b Hb. apply bits_length. exact Hb.
Qed.
Lemma expect_square {A} n (w : A -> list bool -> R) xs ps : Forall (dist n) ps -> Forall2 (fun x p => rsum (map (fun b => p b * w x b) (bits n)) = 0) xs ps ->
  expect n ps (fun bs => rsum (map (fun xb => w (fst xb) (snd xb)) (combine xs bs)) ^ 2) = rsum (map (fun xp => rsum (map (fun b => snd xp b * w (fst xp) b ^ 2) (bits n))) (combine xs ps)).
Proof.
  intros D F. induction F as [|x p xs ps Z F IH]; [cbn; ring|]. inversion D as [|p' ps' Dp D']; subst. specialize (IH D'). cbn [expect combine map rsum fst snd].
  assert (M : expect n ps (fun bs => rsum (map (fun xb => w (fst xb) (snd xb)) (combine xs bs))) = 0).
  { assert (L : List.length xs = List.length ps) by (clear - F; induction F; cbn; lia). rewrite (expect_sum n w xs ps D' L). clear - F. induction F as [|x p xs ps Z F IH]; [reflexivity|]. cbn [combine map rsum fst snd]. rewrite Z, IH. ring. }
  set (T := rsum (map (fun xp => rsum (map (fun b => snd xp b * w (fst xp) b ^ 2) (bits n))) (combine xs ps))) in *.
  rewrite (rsum_ext _ (fun b => p b * w x b ^ 2 + p b * T)).
  - rewrite rsum_plus, (rsum_const_r p), Dp. ring.
  - intros b _. set (S := fun bs => rsum (map (fun xb => w (fst xb) (snd xb)) (combine xs bs))).
    rewrite (expect_ext n ps _ (fun bs => w x b ^ 2 + (2 * w x b * S bs + S bs ^ 2))) by (intros bs _ _; unfold S; ring).
    rewrite expect_plus, (expect_const n ps _ D'), expect_plus, expect_scal. fold S in M. rewrite M. change (expect n ps (fun bs => S bs ^ 2)) with (expect n ps (fun bs => rsum (map (fun xb => w (fst xb) (snd xb)) (combine xs bs)) ^ 2)). rewrite IH. ring.
Qed.
Lemma sign_sq qs s : sign qs s ^ 2 = 1.
Proof. unfold sign. induction qs as [|q qs IH]; [cbn; ring|]. cbn [fold_right]. rewrite Rpow_mult_distr, IH. destruct (nth q s false); ring. Qed.
(** The moments of one shot of a fitting row. *)
Lemma shot_moments n rho psi ops row b v : normalised n psi -> xyzi n ops -> List.length row = n -> (forall i, In i row -> (i < 3)%nat) -> fits ops row = true ->
  den rho b = seqs (map basis_change (row_ops_from 0 row)) -> expval n psi (den rho (product ops)) = RtoC v ->
  rsum (map (fun s => prob n (den rho b psi) s * (sign (map snd (letters ops)) s - v)) (bits n)) = 0 /\
  rsum (map (fun s => prob n (den rho b psi) s * (sign (map snd (letters ops)) s - v) ^ 2) (bits n)) = 1 - v ^ 2.
Proof.
  intros Hp X L B Fi D V. destruct (shot_mean n rho psi ops row b Hp X L B Fi D) as [T M]. rewrite V in M. apply RtoC_inj in M. set (p := prob n (den rho b psi)) in *. set (sg := sign (map snd (letters ops))) in *. split.
  - rewrite (rsum_ext _ (fun s => p s * sg s + p s * (- v))) by (intros; ring). rewrite rsum_plus, (rsum_const_r p), T, M. ring.
  - rewrite (rsum_ext _ (fun s => - (2 * v) * (p s * sg s) + p s * (1 + v ^ 2))).
    + rewrite rsum_plus, rsum_scal, (rsum_const_r p), T, M. ring.
    + intros s _. assert (Q := sign_sq (map snd (letters ops)) s). fold (sg s) in Q. fold sg in Q. replace ((sg s - v) ^ 2) with (sg s ^ 2 - 2 * v * sg s + v ^ 2) by ring. rewrite Q. ring.
Qed.
Definition rotated (ids : list (list nat)) (cs : list block) : Prop := Forall2 (fun row c => forall rho, den rho c = seqs (map basis_change (row_ops_from 0 row))) ids cs.
Lemma shots_nonneg n rho psi cs : Forall nonneg (shots n rho psi cs).
Proof. unfold shots. apply Forall_forall. intros p I. apply in_map_iff in I as (c & <- & _). intros s. unfold shot_prob. simpl. apply Rplus_le_le_0_compat; rewrite Rmult_1_r; apply Rle_0_sqr. Qed.
Lemma value_spread n rho psi ops ids cs v : normalised n psi -> xyzi n ops -> rows_ok n ids -> rotated ids cs -> (0 < measured ops ids)%nat -> expval n psi (den rho (product ops)) = RtoC v ->
  expect n (shots n rho psi cs) (fun bs => (value ops ids bs - v) ^ 2) = (1 - v ^ 2) / INR (measured ops ids).
Proof.
  intros Hp X R F Hm V. assert (D := shots_dist n rho psi ids cs Hp R F).
  assert (EX : existsb (fits ops) ids = true). { unfold measured in Hm. destruct (filter (fits ops) ids) as [|r l] eqn:E; [cbn in Hm; lia|]. apply existsb_exists. exists r. apply filter_In. rewrite E. left. reflexivity. }
  set (W := INR (measured ops ids)). assert (W0 : W <> 0) by (unfold W; apply not_0_INR; lia).
  set (w := fun (r : list nat) b => if fits ops r then sign (map snd (letters ops)) b - v else 0).
  assert (Lc : List.length ids = List.length cs) by (clear - F; induction F; cbn; lia).
  rewrite (expect_ext n _ _ (fun bs => / W ^ 2 * rsum (map (fun xb => w (fst xb) (snd xb)) (combine ids bs)) ^ 2)).
  2: { intros bs L _. unfold value. rewrite EX. change (INR (List.length (filter (fits ops) ids))) with W.
       assert (S : rsum (map (fun xb => w (fst xb) (snd xb)) (combine ids bs)) = rsum (map (fun rs => if fits ops (fst rs) then sign (map snd (letters ops)) (snd rs) else 0) (combine ids bs)) - W * v).
       { unfold W, measured, shots in *. rewrite map_length in L. rewrite <- Lc in L. clear - L. revert bs L. induction ids as [|r ids IH]; intros [|b bs] L; try discriminate; [cbn; ring|]. injection L as L. cbn [combine map rsum fst snd filter]. rewrite (IH bs L). unfold w. destruct (fits ops r); [|ring]. cbn [List.length]. rewrite S_INR. ring. }
       rewrite S. field. exact W0. }
  rewrite expect_scal, expect_square; [|exact D|].
  - assert (S : rsum (map (fun xp => rsum (map (fun b => snd xp b * w (fst xp) b ^ 2) (bits n))) (combine ids (shots n rho psi cs))) = W * (1 - v ^ 2)).
    { unfold W, measured. clear - Hp X R F V. induction F as [|row c ids cs Dc F IH]; [cbn; ring|]. specialize (IH (fun r I => R r (or_intror I))). destruct (R row (or_introl eq_refl)) as [L B]. cbn [shots map combine rsum fst snd filter]. fold (shots n rho psi cs). rewrite IH. unfold w at 1. destruct (fits ops row) eqn:Fi.
      - cbn [List.length]. rewrite S_INR, shot_is_prob. rewrite (proj2 (shot_moments n rho psi ops row c v Hp X L B Fi (Dc rho) V)). ring.
      - rewrite (rsum_ext _ (fun b => shot_prob false n (den rho c) psi b * 0)) by (intros; ring). rewrite (rsum_const_r (shot_prob false n (den rho c) psi) 0). ring. }
    rewrite S. field. exact W0.
  - clear - Hp X R F V. induction F as [|row c ids cs Dc F IH]; [constructor|]. constructor; [|apply IH; intros r I; apply R; right; exact I]. destruct (R row (or_introl eq_refl)) as [L B]. unfold w. destruct (fits ops row) eqn:Fi.
    + rewrite shot_is_prob. apply (shot_moments n rho psi ops row c v Hp X L B Fi (Dc rho) V).
    + rewrite (rsum_const_r (shot_prob false n (den rho c) psi) 0). ring.
Qed.
Lemma existsb_measured ops ids : (0 < measured ops ids)%nat -> existsb (fits ops) ids = true.
Proof. intros Hm. unfold measured in Hm. destruct (filter (fits ops) ids) as [|r l] eqn:E; [cbn in Hm; lia|]. apply existsb_exists. exists r. apply filter_In. rewrite E. left. reflexivity. Qed.
Lemma group_rows n N K k ids : rows_ok n ids -> rows_ok n (group N K k ids).
Proof. intros R r I. apply R. exact (group_in _ _ _ _ _ I). Qed.
Lemma estimator_shots si n rho psi N K k ids cs o ops (h : R -> R) : xyzi n ops -> string_observable si o ops -> rows_ok n ids -> normalised n psi -> rotated ids cs -> (k < K)%nat ->
  expect n (shots n rho psi cs) (fun bs => h (estimator_of si N K ids o k bs)) = expect n (shots n rho psi (group N K k cs)) (fun bs => h (value ops (group N K k ids) bs)).
Proof.
  intros X S R Hp F HK. assert (D := shots_dist n rho psi ids cs Hp R F). assert (Lc : List.length ids = List.length cs) by (clear - F; induction F; cbn; lia).
  rewrite (expect_ext n _ _ (fun bs => h (value ops (group N K k ids) (group N K k bs)))).
  2: { intros bs L T. f_equal. apply (estimator_value si n); try assumption. unfold shots in L. rewrite map_length in L. lia. }
  rewrite (expect_group n N K k _ (fun bs => h (value ops (group N K k ids) bs)) D). unfold shots. rewrite <- map_group. reflexivity.
Qed.
(** The mean squared error of a group estimate is (1 - v^2) / m, where v is the expectation value and m the number of rows of the group
    that measure the string. *)
Theorem C16_variance : forall set_iter n rho psi N K k ids o ops v, set_order set_iter -> (1 < n)%nat -> normalised n psi -> xyzi n ops -> string_observable set_iter o ops ->
  rows_ok n ids -> (k < K)%nat -> expval n psi (den rho o) = RtoC v -> (0 < measured ops (group N K k ids))%nat ->
  exists cs, shadow_circuits set_iter n ids = Some cs /\
    expect n (map (fun c => shot_prob false n (den rho c) psi) cs) (fun bs => (estimator_of set_iter N K ids o k bs - v) ^ 2) = (1 - v ^ 2) / INR (measured ops (group N K k ids)).
Proof.
  intros si n rho psi N K k ids o ops v O Hn Hp X S R HK V Hm. destruct (circuits_of si n ids O Hn R) as (cs & E & F). exists cs. split; [exact E|].
  change (map (fun c => shot_prob false n (den rho c) psi) cs) with (shots n rho psi cs). rewrite (estimator_shots si n rho psi N K k ids cs o ops (fun x => (x - v) ^ 2) X S R Hp F HK).
  apply value_spread; [exact Hp|exact X|apply group_rows; exact R|apply Forall2_group; exact F|exact Hm|rewrite <- (string_observable_den si rho o ops S); exact V].
Qed.
Lemma chebyshev n ps (f : list (list bool) -> R) v eps : 0 < eps -> Forall nonneg ps -> probability n ps (fun bs => misses (f bs) v eps) <= expect n ps (fun bs => (f bs - v) ^ 2) / eps ^ 2.
Proof.
  intros He F. unfold probability. replace (expect n ps (fun bs => (f bs - v) ^ 2) / eps ^ 2) with (expect n ps (fun bs => / eps ^ 2 * (f bs - v) ^ 2)) by (rewrite expect_scal; unfold Rdiv; ring).
  assert (E2 : 0 < eps ^ 2) by (apply pow_lt; exact He).
  apply expect_le; [exact F|]. intros bs _ _. unfold misses. destruct (Rlt_dec eps (Rabs (f bs - v))) as [H|H].
  - apply (Rmult_le_reg_l (eps ^ 2)); [exact E2|]. rewrite <- Rmult_assoc, Rinv_r, Rmult_1_l, Rmult_1_r by lra. rewrite <- (pow2_abs (f bs - v)). apply pow_incr. lra.
  - apply Rmult_le_pos; [left; apply Rinv_0_lt_compat; exact E2|apply pow2_ge_0].
Qed.
(** So the probability that a group estimate misses the expectation value by more than eps is at most (1 - v^2) / (m eps^2). *)
Theorem C16_deviation : forall set_iter n rho psi N K k ids o ops v eps, set_order set_iter -> (1 < n)%nat -> normalised n psi -> xyzi n ops -> string_observable set_iter o ops ->
  rows_ok n ids -> (k < K)%nat -> expval n psi (den rho o) = RtoC v -> (0 < measured ops (group N K k ids))%nat -> 0 < eps ->
  exists cs, shadow_circuits set_iter n ids = Some cs /\
    probability n (map (fun c => shot_prob false n (den rho c) psi) cs) (fun bs => misses (estimator_of set_iter N K ids o k bs) v eps) <= (1 - v ^ 2) / (INR (measured ops (group N K k ids)) * eps ^ 2).
Proof.
  intros si n rho psi N K k ids o ops v eps O Hn Hp X S R HK V Hm He. destruct (C16_variance si n rho psi N K k ids o ops v O Hn Hp X S R HK V Hm) as (cs & E & Q). exists cs. split; [exact E|].
  eapply Rle_trans; [apply chebyshev; [exact He|apply shots_nonneg]|]. rewrite Q. right. field. split; [lra|]. apply not_0_INR. lia.
Qed.

(** * The median of the groups *)
Fixpoint gprod (m : nat) (fs : list (list (list bool) -> R)) (bs : list (list bool)) : R :=
  match fs with [] => 1 | f :: r => f (firstn m bs) * gprod m r (skipn m bs) end.
Lemma expect_split n m ps f g : Forall (dist n) ps -> expect n ps (fun bs => f (firstn m bs) * g (skipn m bs)) = expect n (firstn m ps) f * expect n (skipn m ps) g.
Proof.
  revert ps f. induction m as [|m IH]; intros ps f D; [cbn [firstn skipn expect]; apply expect_scal|]. destruct D as [|p ps Dp D]; [reflexivity|]. cbn [expect firstn skipn].
  rewrite <- (rsum_const_r _ (expect n (skipn m ps) g)). apply rsum_ext. intros b _. rewrite (IH ps (fun bs => f (b :: bs)) D). ring.
Qed.
Fixpoint groups_of {A} (m K : nat) (l : list A) : list (list A) := match K with O => [] | S K' => firstn m l :: groups_of m K' (skipn m l) end.
Lemma skipn_add {A} a b (l : list A) : skipn a (skipn b l) = skipn (a + b) l.
Proof. revert l. induction b as [|b IH]; intros l; [rewrite Nat.add_0_r; reflexivity|]. destruct l as [|x l]; [rewrite !skipn_nil; reflexivity|]. rewrite Nat.add_succ_r. cbn [skipn]. apply IH. Qed.
Lemma groups_seq {A} m K s (l : list A) : groups_of m K (skipn (s * m) l) = map (fun k => firstn m (skipn (k * m) l)) (seq s K).
Proof.
  revert s. induction K as [|K IH]; intros s; [reflexivity|]. cbn [groups_of seq map]. f_equal. rewrite skipn_add. replace (m + s * m)%nat with (S s * m)%nat by lia. apply IH.
Qed.
Lemma groups_group {A} N K (l : list A) : groups_of (N / K) K l = map (fun k => group N K k l) (seq 0 K).
Proof. exact (groups_seq (N / K) K 0 l). Qed.
Definition rprod (l : list R) : R := fold_right Rmult 1 l.
Lemma gprod_expect n m fs ps : Forall (dist n) ps -> expect n ps (gprod m fs) = rprod (map (fun fp => expect n (snd fp) (fst fp)) (combine fs (groups_of m (List.length fs) ps))).
Proof.
  revert ps. induction fs as [|f fs IH]; intros ps D; [cbn; apply expect_const; exact D|]. cbn [List.length groups_of combine map rprod fold_right fst snd].
  change (gprod m (f :: fs)) with (fun bs => f (firstn m bs) * gprod m fs (skipn m bs)). rewrite expect_split by exact D. rewrite (IH (skipn m ps)) by (apply Forall_skipn; exact D). reflexivity.
Qed.
Lemma gprod_groups m fs bs : gprod m fs bs = rprod (map (fun fg => fst fg (snd fg)) (combine fs (groups_of m (List.length fs) bs))).
Proof. revert bs. induction fs as [|f fs IH]; intros bs; [reflexivity|]. cbn [gprod List.length groups_of combine map rprod fold_right fst snd]. rewrite IH. reflexivity. Qed.
Lemma rprod_pos l : (forall x, In x l -> 0 <= x) -> 0 <= rprod l.
Proof. intros H. induction l as [|x l IH]; [cbn; lra|]. cbn [rprod fold_right]. apply Rmult_le_pos; [apply H; left; reflexivity|apply IH; intros y I; apply H; right; exact I]. Qed.
Lemma rprod_le l c : (forall x, In x l -> 0 <= x <= c) -> rprod l <= c ^ List.length l.
Proof.
  intros H. induction l as [|x l IH]; [cbn; lra|]. cbn [rprod fold_right List.length pow]. apply Rmult_le_compat; [apply H; left; reflexivity|apply rprod_pos; intros y I; apply H; right; exact I|apply H; left; reflexivity|apply IH; intros y I; apply H; right; exact I].
Qed.
(** A median that misses: at least half of the entries miss. *)
Lemma median_misses l v eps : l <> [] -> misses (median l) v eps = true -> (List.length l <= 2 * List.length (filter (fun x => misses x v eps) l))%nat.
Proof.
  intros Ne H. destruct (C16_median l Ne) as (_ & A & B). unfold misses in H. destruct (Rlt_dec eps (Rabs (median l - v))) as [M|]; [|discriminate].
  assert (SUB : forall p q : R -> bool, (forall x, p x = true -> q x = true) -> (List.length (filter p l) <= List.length (filter q l))%nat).
  { intros p q I. clear - I. induction l as [|x l IH]; [cbn; lia|]. cbn [filter]. destruct (p x) eqn:E; [rewrite (I x E); cbn; lia|]. destruct (q x); cbn; lia. }
  destruct (Rle_dec v (median l)) as [G|G].
  - eapply Nat.le_trans; [exact B|]. apply Nat.mul_le_mono_l. apply SUB. intros x E. destruct (Rle_dec (median l) x); [|discriminate]. unfold misses. rewrite Rabs_pos_eq in M by lra. destruct (Rlt_dec eps (Rabs (x - v))) as [|Q]; [reflexivity|]. rewrite Rabs_pos_eq in Q by lra. lra.
  - eapply Nat.le_trans; [exact A|]. apply Nat.mul_le_mono_l. apply SUB. intros x E. destruct (Rle_dec x (median l)); [|discriminate]. unfold misses. rewrite Rabs_left in M by lra. destruct (Rlt_dec eps (Rabs (x - v))) as [|Q]; [reflexivity|]. rewrite Rabs_left in Q by lra. lra.
Qed.
Definition odds (a : R) (b : bool) : R := if b then a else / a.
Lemma rprod_odds a l : 0 < a -> rprod (map (odds a) l) * a ^ List.length l = a ^ (2 * List.length (filter (fun b : bool => b) l)).
Proof.
  intros Ha. induction l as [|b l IH]; [cbn; ring|]. cbn [map rprod fold_right List.length pow filter]. fold (rprod (map (odds a) l)).
  replace (odds a b * rprod (map (odds a) l) * (a * a ^ List.length l)) with (odds a b * a * (rprod (map (odds a) l) * a ^ List.length l)) by ring. rewrite IH. destruct b; cbn [odds List.length].
  - replace (2 * S (List.length (filter (fun b : bool => b) l)))%nat with (2 + 2 * List.length (filter (fun b : bool => b) l))%nat by lia. rewrite pow_add. ring.
  - rewrite Rinv_l by lra. ring.
Qed.
Lemma half_odds a l : 1 <= a -> (List.length l <= 2 * List.length (filter (fun b : bool => b) l))%nat -> 1 <= rprod (map (odds a) l).
Proof.
  intros Ha H. assert (P := rprod_odds a l ltac:(lra)). assert (Q : a ^ List.length l <= a ^ (2 * List.length (filter (fun b : bool => b) l))) by (apply Rle_pow; assumption).
  assert (Z : 0 < a ^ List.length l) by (apply pow_lt; lra). apply (Rmult_le_reg_r (a ^ List.length l)); [exact Z|]. rewrite P. lra.
Qed.
Definition a34 : R := sqrt 34.
Lemma a34_sq : a34 * a34 = 34.
Proof. apply sqrt_sqrt. lra. Qed.
Lemma a34_ge : 1 <= a34.
Proof. unfold a34. rewrite <- sqrt_1 at 1. apply sqrt_le_1_alt. lra. Qed.
Lemma exp_ge x : 1 + x <= exp x.
Proof. destruct (Req_dec x 0) as [->|N]; [rewrite exp_0; lra|left; apply exp_ineq1; exact N]. Qed.
Lemma exp_m1 : 0.35 <= exp (-1).
Proof.
  assert (E : exp (-1) = exp (- (1 / 16)) ^ 16). { rewrite <- Rpower_pow by apply exp_pos. unfold Rpower. rewrite ln_exp. f_equal. rewrite INR_IZR_INZ. simpl. field. }
  rewrite E. apply Rle_trans with ((15 / 16) ^ 16); [simpl; lra|]. apply pow_incr. split; [lra|]. pose proof (exp_ge (- (1 / 16))). lra.
Qed.
(** The expected odds of a group. *)
Lemma odds_mean n ps (event : list (list bool) -> bool) : Forall (dist n) ps -> Forall nonneg ps -> probability n ps event <= / 34 -> 0 <= expect n ps (fun bs => odds a34 (event bs)) <= exp (-1).
Proof.
  intros D P H. assert (A := a34_sq). assert (G := a34_ge). assert (I0 : 0 < / a34) by (apply Rinv_0_lt_compat; lra). assert (Ia : a34 * / a34 = 1) by (apply Rinv_r; lra).
  rewrite (expect_ext n ps _ (fun bs => / a34 + (a34 - / a34) * (if event bs then 1 else 0))) by (intros bs _ _; unfold odds; destruct (event bs); ring).
  rewrite expect_plus, (expect_const n ps _ D), expect_scal. fold (probability n ps event).
  assert (N : 0 <= probability n ps event). { unfold probability. apply Rle_trans with (expect n ps (fun _ => 0)); [rewrite (expect_const n ps 0 D); lra|]. apply expect_le; [exact P|]. intros bs _ _. destruct (event bs); lra. }
  set (p := probability n ps event) in *. assert (B : 5.8 <= a34) by (destruct (Rle_dec 5.8 a34) as [|F]; [assumption|apply Rnot_le_lt in F; exfalso; nra]).
  assert (J : / a34 <= / 5.8) by (apply Rinv_le_contravar; lra). assert (E : a34 = 34 * / a34) by (apply (Rmult_eq_reg_l a34); [|lra]; rewrite A; replace (a34 * (34 * / a34)) with (34 * (a34 * / a34)) by ring; rewrite Ia; ring).
  split; [nra|]. pose proof exp_m1. nra.
Qed.
Lemma nonneg_group n rho psi cs N K k : Forall nonneg (shots n rho psi (group N K k cs)).
Proof. apply shots_nonneg. Qed.
Lemma exp_pow K : exp (-1) ^ K = exp (- INR K).
Proof. rewrite <- Rpower_pow by apply exp_pos. unfold Rpower. rewrite ln_exp. f_equal. ring. Qed.
Lemma combine_map_seq {A B} (f : nat -> A) (g : nat -> B) l : combine (map f l) (map g l) = map (fun k => (f k, g k)) l.
Proof. induction l as [|x l IH]; [reflexivity|]. cbn. rewrite IH. reflexivity. Qed.
(** One string: the median misses with probability at most exp (- K). *)
Lemma median_bound si n rho psi N K ids cs o ops v eps : normalised n psi -> xyzi n ops -> string_observable si o ops -> rows_ok n ids -> rotated ids cs -> (0 < K)%nat -> 0 < eps -> expval n psi (den rho o) = RtoC v ->
  (forall k, (k < K)%nat -> 34 / eps ^ 2 <= INR (measured ops (group N K k ids))) ->
  probability n (shots n rho psi cs) (fun bs => misses (median (map (fun k => value ops (group N K k ids) (group N K k bs)) (seq 0 K))) v eps) <= exp (- INR K).
Proof.
  intros Hp X S R F HK He V Hm. assert (D := shots_dist n rho psi ids cs Hp R F). assert (E2 : 0 < eps ^ 2) by (apply pow_lt; exact He).
  set (ev_ := fun k bs => misses (value ops (group N K k ids) bs) v eps). set (fs := map (fun k bs => odds a34 (ev_ k bs)) (seq 0 K)).
  apply Rle_trans with (expect n (shots n rho psi cs) (gprod (N / K) fs)).
  - unfold probability. apply expect_le; [apply shots_nonneg|]. intros bs L T. rewrite gprod_groups. unfold fs at 2. rewrite map_length, seq_length, groups_group. unfold fs. rewrite combine_map_seq, map_map. cbn [fst snd].
    set (l := map (fun k => value ops (group N K k ids) (group N K k bs)) (seq 0 K)).
    assert (El : map (fun k => odds a34 (ev_ k (group N K k bs))) (seq 0 K) = map (odds a34) (map (fun x => misses x v eps) l)) by (unfold l; rewrite !map_map; reflexivity). rewrite El.
    destruct (misses (median l) v eps) eqn:M.
    + apply half_odds; [exact a34_ge|]. assert (Nl : l <> []) by (unfold l; destruct K; [lia|discriminate]). pose proof (median_misses l v eps Nl M) as Q. rewrite map_length.
      assert (C : List.length (filter (fun b : bool => b) (map (fun x => misses x v eps) l)) = List.length (filter (fun x => misses x v eps) l)). { clear. induction l as [|x l IH]; [reflexivity|]. cbn [map filter]. destruct (misses x v eps); cbn [List.length]; rewrite IH; reflexivity. }
      rewrite C. exact Q.
    + apply rprod_pos. intros x I. apply in_map_iff in I as (b & <- & _). pose proof a34_ge. unfold odds. destruct b; [lra|]. left. apply Rinv_0_lt_compat. lra.
  - rewrite (gprod_expect n (N / K) fs _ D). unfold fs at 2. rewrite map_length, seq_length, groups_group. unfold fs. rewrite combine_map_seq, map_map. cbn [fst snd].
    eapply Rle_trans; [apply (rprod_le _ (exp (-1)))|rewrite map_length, seq_length; right; apply exp_pow].
    intros x I. apply in_map_iff in I as (k & <- & I). apply in_seq in I. unfold shots. rewrite <- map_group. change (map (fun c => shot_prob false n (den rho c) psi) (group N K k cs)) with (shots n rho psi (group N K k cs)).
    assert (Fk : rotated (group N K k ids) (group N K k cs)) by (apply Forall2_group; exact F). assert (Rk := group_rows n N K k ids R). assert (Dk := shots_dist n rho psi _ _ Hp Rk Fk).
    apply (odds_mean n _ (ev_ k)); [exact Dk|apply shots_nonneg|]. unfold ev_. assert (Hk : 34 / eps ^ 2 <= INR (measured ops (group N K k ids))) by (apply Hm; lia).
    assert (P34 : 0 < 34 / eps ^ 2) by (apply Rdiv_lt_0_compat; lra). assert (M0 : (0 < measured ops (group N K k ids))%nat) by (apply INR_lt; simpl; lra).
    eapply Rle_trans; [apply (chebyshev n (shots n rho psi (group N K k cs)) (value ops (group N K k ids)) v eps He (shots_nonneg _ _ _ _))|].
    rewrite (string_observable_den si rho o ops S) in V. rewrite (value_spread n rho psi ops _ _ v Hp X Rk Fk M0 V).
    set (m := INR (measured ops (group N K k ids))) in *. assert (Q : 34 <= m * eps ^ 2). { apply (Rmult_le_compat_r (eps ^ 2)) in Hk; [|lra]. replace (34 / eps ^ 2 * eps ^ 2) with 34 in Hk by (field; lra). exact Hk. }
    replace ((1 - v ^ 2) / m / eps ^ 2) with ((1 - v ^ 2) * / (m * eps ^ 2)) by (field; split; lra).
    assert (I1 : / (m * eps ^ 2) <= / 34) by (apply Rinv_le_contravar; lra). assert (I2 : 0 < / (m * eps ^ 2)) by (apply Rinv_0_lt_compat; lra). pose proof (pow2_ge_0 v). nra.
Qed.

(** * All observables *)
(** Some returned value misses its expectation value (no value at all also counts). *)
Definition some_miss (n : nat) (rho : env) (psi : St) (os : list block) (eps : R) (result : option (list R)) : bool :=
  match result with
  | Some vs => existsb (fun vo => misses (fst vo) (fst (expval n psi (den rho (snd vo)))) eps) (combine vs os)
  | None => true
  end.
Lemma unroll_string si o ops : string_observable si o ops -> unroll_block_with_scaling o = [(o, ECst (RtoC 1))].
Proof. intros [[-> _]|(p & q & -> & _)]; reflexivity. Qed.
Lemma estimate_string si n rho N K ids samples o ops : xyzi n ops -> string_observable si o ops -> (0 < K)%nat -> rows_ok n ids -> strings_ok n samples -> List.length ids = List.length samples ->
  estimate si rho N K ids samples o = Some (median (map (fun k => value ops (group N K k ids) (group N K k samples)) (seq 0 K))).
Proof.
  intros X S HK R T L. unfold estimate. rewrite (unroll_string si o ops S). cbn [map fst snd]. rewrite (C16_estimators si n N K ids samples o ops X S HK R T L). cbn [option_map osequence M_Tensor.obind rsum].
  change (ang rho (ECst (RtoC 1))) with 1. rewrite Rmult_1_r. rewrite Rplus_0_r. reflexivity.
Qed.
Lemma probability_or n ps a b : Forall nonneg ps -> probability n ps (fun bs => a bs || b bs) <= probability n ps a + probability n ps b.
Proof. intros P. unfold probability. rewrite <- expect_plus. apply expect_le; [exact P|]. intros bs _ _. destruct (a bs), (b bs); simpl; lra. Qed.
Lemma probability_ext n ps a b : (forall bs, List.length bs = List.length ps -> strings_ok n bs -> a bs = b bs) -> probability n ps a = probability n ps b.
Proof. intros H. unfold probability. apply expect_ext. intros bs L T. rewrite (H bs L T). reflexivity. Qed.
Lemma real_value n rho psi si ids cs o ops N K : normalised n psi -> xyzi n ops -> string_observable si o ops -> rows_ok n ids -> rotated ids cs -> (0 < measured ops (group N K 0 ids))%nat ->
  expval n psi (den rho o) = RtoC (fst (expval n psi (den rho o))).
Proof.
  intros Hp X S R F M. apply existsb_measured in M. apply existsb_exists in M as (row & I & Fi). apply group_in in I. rewrite (string_observable_den si rho o ops S).
  assert (C : exists c, forall rho, den rho c = seqs (map basis_change (row_ops_from 0 row))). { clear - F I. induction F as [|r c ids cs D F IH]; [destruct I|]. destruct I as [->|I]; [exists c; exact D|exact (IH I)]. }
  destruct C as (c & D). destruct (R row I) as [L B]. destruct (shot_mean n rho psi ops row c Hp X L B Fi (D rho)) as [_ M]. rewrite <- M. reflexivity.
Qed.
(** When every one of the K groups holds at least 34 / accuracy^2 rows measuring each of the given strings, the probability that any
    returned value misses its expectation value by more than the accuracy is at most the confidence parameter. *)
Theorem C16_guarantee : forall set_iter n rho psi os size accuracy confidence n0 k0 ids, set_order set_iter -> (1 < n)%nat -> normalised n psi -> os <> [] ->
  0 < accuracy -> 0 < confidence <= 1 -> number_of_samples os accuracy confidence = Some (n0, k0) -> rows_ok n ids ->
  let N := match size with Some s => s | None => Z.to_nat n0 end in let K := Z.to_nat k0 in
  (forall o, In o os -> exists ops, xyzi n ops /\ string_observable set_iter o ops /\ forall k, (k < K)%nat -> 34 / accuracy ^ 2 <= INR (measured ops (group N K k ids))) ->
  (0 < K)%nat /\ exists cs, shadow_circuits set_iter n ids = Some cs /\
    probability n (map (fun c => shot_prob false n (den rho c) psi) cs) (fun samples => some_miss n rho psi os accuracy (estimations set_iter rho os size accuracy confidence ids samples)) <= confidence.
Proof.
  intros si n rho psi os size eps del n0 k0 ids O Hn Hp No He Hd E R N K H. destruct (circuits_of si n ids O Hn R) as (cs & Ec & F).
  assert (E2 : 0 < eps ^ 2) by (apply pow_lt; exact He). assert (P34 : 0 < 34 / eps ^ 2) by (apply Rdiv_lt_0_compat; lra).
  set (M := INR (List.length os)). assert (M1 : 1 <= M) by (unfold M; change 1 with (INR 1); apply le_INR; destruct os; [congruence|cbn; lia]).
  set (x := 2 * M / del). assert (x2 : 2 <= x). { unfold x. apply (Rmult_le_reg_r del); [lra|]. unfold Rdiv. rewrite Rmult_assoc, Rinv_l by lra. nra. }
  assert (Kx : 2 * ln x - 1 / 2 <= IZR k0). { unfold number_of_samples in E. destruct (maximal_weight os) as [w|]; [|discriminate]. injection E as _ <-. fold M. fold x. pose proof (rint_near (2 * ln x)) as Q. unfold Rabs in Q. destruct (Rcase_abs _); lra. }
  assert (l2 : 1 / 4 < ln x). { rewrite <- (ln_exp (1 / 4)). apply ln_increasing; [apply exp_pos|]. pose proof (exp_ge (- (1 / 4))) as Q. assert (Z : exp (1 / 4) * exp (- (1 / 4)) = 1) by (rewrite <- exp_plus; replace (1 / 4 + - (1 / 4)) with 0 by field; apply exp_0). pose proof (exp_pos (1 / 4)). nra. }
  assert (k0pos : (0 < k0)%Z) by (apply lt_IZR; lra). assert (HK : (0 < K)%nat) by (unfold K; lia). split; [exact HK|].
  assert (IK : INR K = IZR k0) by (unfold K; rewrite INR_IZR_INZ, Z2Nat.id by lia; reflexivity).
  assert (B : exp (- INR K) <= del / M).
  { apply Rle_trans with (exp (1 / 2 - 2 * ln x)); [destruct (Req_dec (- INR K) (1 / 2 - 2 * ln x)) as [Q|Q]; [rewrite Q; lra|left; apply exp_increasing; lra]|].
    replace (1 / 2 - 2 * ln x) with (1 / 2 + (- ln x + - ln x)) by ring. rewrite !exp_plus, <- ln_Rinv, exp_ln by (try apply Rinv_0_lt_compat; lra).
    assert (Hh : exp (1 / 2) <= 2). { pose proof (exp_ge (- (1 / 2))) as Q. assert (Z : exp (1 / 2) * exp (- (1 / 2)) = 1) by (rewrite <- exp_plus; replace (1 / 2 + - (1 / 2)) with 0 by field; apply exp_0). pose proof (exp_pos (1 / 2)). nra. }
    assert (Ix : / x = del / M / 2) by (unfold x; field; lra). rewrite Ix. assert (Dm : 0 < del / M <= 1). { split; [apply Rdiv_lt_0_compat; lra|]. apply (Rmult_le_reg_r M); [lra|]. unfold Rdiv. rewrite Rmult_assoc, Rinv_l by lra. lra. }
    pose proof (exp_pos (1 / 2)). set (d := del / M) in *. assert (Z1 : d / 2 * (d / 2) <= d / 4) by nra. apply Rle_trans with (2 * (d / 4)); [apply Rmult_le_compat; nra|lra]. }
  exists cs. split; [exact Ec|]. change (map (fun c => shot_prob false n (den rho c) psi) cs) with (shots n rho psi cs).
  assert (D := shots_dist n rho psi ids cs Hp R F). assert (Lc : List.length ids = List.length cs) by (clear - F; induction F; cbn; lia).
  assert (U : forall os', (forall o, In o os' -> In o os) -> probability n (shots n rho psi cs) (fun samples => some_miss n rho psi os' eps (osequence (map (estimate si rho N K ids samples) os'))) <= INR (List.length os') * (del / M)).
  { induction os' as [|o os' IH]; intros Sub.
    - unfold probability. rewrite (expect_ext n _ _ (fun _ => 0)) by (intros; reflexivity). rewrite (expect_const n _ 0 D). cbn. lra.
    - destruct (H o (Sub o (or_introl eq_refl))) as (ops & X & S & Hm). specialize (IH (fun o' I => Sub o' (or_intror I))).
      assert (V := real_value n rho psi si ids cs o ops N K Hp X S R F ltac:(apply INR_lt; specialize (Hm 0%nat HK); simpl; lra)).
      pose proof (median_bound si n rho psi N K ids cs o ops _ eps Hp X S R F HK He V Hm) as Q.
      set (first := fun bs => misses (median (map (fun k => value ops (group N K k ids) (group N K k bs)) (seq 0 K))) (fst (expval n psi (den rho o))) eps) in *.
      set (rest := fun samples => some_miss n rho psi os' eps (osequence (map (estimate si rho N K ids samples) os'))) in *.
      rewrite (probability_ext n _ _ (fun bs => first bs || rest bs)).
      + eapply Rle_trans; [apply probability_or; apply shots_nonneg|]. cbn [List.length]. rewrite S_INR. lra.
      + intros bs L T. unfold shots in L. rewrite map_length in L. cbn [map osequence]. rewrite (estimate_string si n rho N K ids bs o ops X S HK R T ltac:(lia)). unfold rest.
        destruct (osequence (map (estimate si rho N K ids bs) os')) as [vs|]; [|cbn; rewrite orb_true_r; reflexivity]. cbn [some_miss combine existsb fst snd]. reflexivity. }
  rewrite (probability_ext n _ _ (fun samples => some_miss n rho psi os eps (osequence (map (estimate si rho N K ids samples) os)))) by (intros bs _ _; unfold estimations; rewrite E; reflexivity).
  eapply Rle_trans; [apply (U os (fun o I => I))|]. fold M. right. field. lra.
Qed.

(** The condition on the groups is not what the budget provides: N rows are split into K groups of N / K rows instead of taking N rows
    for each group.  With one observable Z(0), accuracy 9/10 and confidence parameter 2 exp(-64) the budget is 126 rows and 128 groups,
    which are then empty: on |00>, where Z(0) is 1, the value returned is 0 for all rows and outcomes. *)
Definition tiny : R := 2 * exp (-64).
Theorem C16_budget_refuted : number_of_samples [BPrim PZ 0%nat] (9 / 10) tiny = Some (126%Z, 128%Z) /\ 0 < tiny < 1 /\
  (forall ids samples rho, rows_ok 2 ids -> List.length ids = 126%nat -> strings_ok 2 samples -> List.length samples = 126%nat -> estimations asc rho [BPrim PZ 0%nat] None (9 / 10) tiny ids samples = Some [0]) /\
  forall rho, expval 2 zz00 (den rho (BPrim PZ 0%nat)) = RtoC 1.
Proof.
  assert (B1 : number_of_samples [BPrim PZ 0%nat] (9 / 10) tiny = Some (126%Z, 128%Z)).
  { unfold number_of_samples. change (maximal_weight [BPrim PZ 0%nat]) with (Some 1%nat). cbn [option_map List.length INR]. rewrite (rint_is _ 126) by (split; lra).
    replace (2 * 1 / tiny) with (exp 64). { rewrite ln_exp, (rint_is _ 128) by (split; lra). reflexivity. }
    unfold tiny. replace (exp 64) with (/ exp (-64)) by (rewrite <- exp_Ropp; f_equal; ring). field. apply Rgt_not_eq. apply exp_pos. }
  split; [exact B1|]. split.
  - unfold tiny. pose proof (exp_pos (-64)). split; [lra|]. replace (-64) with (- (64)) in * by ring. rewrite exp_Ropp. pose proof (exp_ge 64) as Q. assert (I : / exp 64 <= / 65) by (apply Rinv_le_contravar; lra). lra.
  - split.
    + intros ids samples rho R L T L'. unfold estimations. rewrite B1. cbn [map]. change (Z.to_nat 126) with 126%nat. change (Z.to_nat 128) with 128%nat.
      rewrite (estimate_string asc 2 rho 126 128 ids samples (BPrim PZ 0) [(PZ, 0%nat)]); [| | | |exact R|exact T|lia].
      * cbn [osequence M_Tensor.obind]. f_equal. f_equal. apply median_const; [discriminate|]. intros x I. apply in_map_iff in I as (k & <- & _). unfold group. change (126 / 128)%nat with 0%nat. cbn [firstn]. reflexivity.
      * split; [repeat constructor; intros []|]. intros p q [E|[]]. injection E as <- <-. split; [auto|lia].
      * right. exists PZ, 0%nat. split; [reflexivity|]. split; [reflexivity|discriminate].
      * lia.
    + intros rho. unfold expval, zz00. rewrite inner_ket by reflexivity. unfold amps, ket. cbn. unfold gate1, gate, csum. cbn. ring.
Qed.

(** * Examples *)
(** Z(0) and X(1) on |00>: four groups of 34 rows measuring both, accuracy 1 and confidence parameter 4 exp(-2). *)
Definition rows136 : list (list nat) := repeat [2; 0]%nat 136.
Lemma samples_136 : exists n0, number_of_samples [BPrim PZ 0%nat; BPrim PX 1%nat] 1 (4 * exp (-2)) = Some (n0, 4%Z).
Proof.
  unfold number_of_samples. change (maximal_weight [BPrim PZ 0%nat; BPrim PX 1%nat]) with (Some 1%nat). cbn [option_map List.length]. eexists. apply f_equal. apply f_equal2; [reflexivity|].
  replace (2 * INR 2 / (4 * exp (-2))) with (exp 2). { rewrite ln_exp. apply rint_is. split; lra. }
  replace (exp 2) with (/ exp (-2)) by (rewrite <- exp_Ropp; f_equal; ring). simpl INR. field. apply Rgt_not_eq. apply exp_pos.
Qed.
Example C16_guarantee_ex : forall rho, exists cs, shadow_circuits asc 2 rows136 = Some cs /\ probability 2 (map (fun c => shot_prob false 2 (den rho c) zz00) cs) (fun samples => some_miss 2 rho zz00 [BPrim PZ 0%nat; BPrim PX 1%nat] 1 (estimations asc rho [BPrim PZ 0%nat; BPrim PX 1%nat] (Some 136%nat) 1 (4 * exp (-2)) rows136 samples)) <= 4 * exp (-2).
Proof.
  intros rho. destruct samples_136 as (n0 & E).
  destruct (C16_guarantee asc 2 rho zz00 [BPrim PZ 0%nat; BPrim PX 1%nat] (Some 136%nat) 1 (4 * exp (-2)) n0 4%Z rows136 asc_order ltac:(lia) ltac:(apply normalised_ket; reflexivity) ltac:(discriminate) ltac:(lra)) as (_ & cs & Ec & P).
  - pose proof (exp_pos (-2)). split; [lra|]. replace (-2) with (- 1 + - 1) by ring. rewrite exp_plus. assert (A : exp (-1) <= 1 / 2) by (replace (-1) with (- (1)) by ring; rewrite exp_Ropp; pose proof (exp_ge 1); replace (1 / 2) with (/ 2) by field; apply Rinv_le_contravar; lra). pose proof (exp_pos (-1)). nra.
  - exact E.
  - intros r I. apply repeat_spec in I. subst r. split; [reflexivity|]. intros i [<- | [<- | []]]; lia.
  - assert (M : forall ops k, fits ops [2; 0]%nat = true -> (k < 4)%nat -> 34 / 1 ^ 2 <= INR (measured ops (group 136 4 k rows136))).
    { intros ops k F Hk. assert (G : group 136 4 k rows136 = repeat [2; 0]%nat 34) by (destruct k as [|[|[|[|k]]]]; [reflexivity|reflexivity|reflexivity|reflexivity|lia]). rewrite G. unfold measured.
      assert (Q : forall m, List.length (filter (fits ops) (repeat [2; 0]%nat m)) = m) by (induction m as [|m IH]; [reflexivity|]; cbn [repeat filter]; rewrite F; cbn [List.length]; rewrite IH; reflexivity). rewrite Q. rewrite INR_IZR_INZ. simpl. lra. }
    intros o [<- | [<- | []]]; [exists [(PZ, 0%nat)]|exists [(PX, 1%nat)]]; (split; [split; [repeat constructor; intros []|intros p q [F|[]]; injection F as <- <-; split; [auto|lia]]|]; split; [right; eexists; eexists; split; [reflexivity|]; split; [reflexivity|discriminate]|]); intros k Hk; apply M; [reflexivity|exact Hk|reflexivity|exact Hk].
  - exists cs. split; [exact Ec|exact P].
Qed.
(** On |00> the mean squared error of X(1) over 34 rows is 1/34. *)
Example C16_variance_ex : forall rho, exists cs, shadow_circuits asc 2 rows136 = Some cs /\ expect 2 (map (fun c => shot_prob false 2 (den rho c) zz00) cs) (fun bs => (estimator_of asc 136 4 rows136 (BPrim PX 1%nat) 2 bs - 0) ^ 2) = 1 / 34.
Proof.
  intros rho. destruct (C16_variance asc 2 rho zz00 136 4 2 rows136 (BPrim PX 1%nat) [(PX, 1%nat)] 0 asc_order ltac:(lia) ltac:(apply normalised_ket; reflexivity)) as (cs & E & Q).
  - split; [repeat constructor; intros []|intros p q [F|[]]; injection F as <- <-; split; [auto|lia]].
  - right. eexists. eexists. split; [reflexivity|]. split; [reflexivity|discriminate].
  - intros r I. apply repeat_spec in I. subst r. split; [reflexivity|]. intros i [<- | [<- | []]]; lia.
  - lia.
  - unfold expval, zz00. rewrite inner_ket by reflexivity. unfold amps, ket. cbn. unfold gate1, gate, csum. cbn. ring.
  - cbn. lia.
  - exists cs. split; [exact E|]. rewrite Q. change (measured [(PX, 1%nat)] (group 136 4 2 rows136)) with 34%nat. rewrite INR_IZR_INZ. simpl. field.
Qed.

Print Assumptions C16_samples.
Print Assumptions C16_variance.
Print Assumptions C16_deviation.
Print Assumptions C16_guarantee.
Print Assumptions C16_budget_refuted.
