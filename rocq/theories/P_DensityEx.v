(** The hypotheses of C72 are met: the spectral decomposition of every Hermitian matrix of dimension two, in closed form, and examples. *)
From Coq Require Import Reals List Arith Bool Lia Lra Setoid Morphisms.
From Coquelicot Require Import Coquelicot.
From Coq Require Import List.
From Verif Require Import S_Ops L_Ops S_Mat L_Mat M_Information M_Overlap M_Density P_Density.
Import ListNotations.
Open Scope R_scope.
Open Scope C_scope.
#[local] Existing Instance meq_equiv.
#[local] Existing Instance mmul_proper.
#[local] Existing Instance madj_proper.

Definition vecs2 (z : C) (p q : R) : mat := fun i j =>
  let n := if Nat.eqb j 0 then (/ sqrt (p * (p - q)))%R else (/ sqrt (q * (q - p)))%R in
  RtoC n * (if Nat.eqb i 0 then z else if Nat.eqb j 0 then RtoC p else RtoC q).
Definition eigh2 (d : nat) (A : mat) : list R * mat :=
  let a := fst (A 0 0)%nat in let b := fst (A 1 1)%nat in let z := A 0%nat 1%nat in
  if Ceq_dec z 0 then ([a; b], mid) else
  let r := sqrt (((a - b) / 2) ^ 2 + (fst z ^ 2 + snd z ^ 2)) in
  let p := ((b - a) / 2 - r)%R in let q := ((b - a) / 2 + r)%R in
  ([(a + p)%R; (a + q)%R], vecs2 z p q).

Lemma lt2 i : (i < 2)%nat -> i = 0%nat \/ i = 1%nat. Proof. lia. Qed.
Lemma vecs2_ok a b z p q A : (p * (p - q) > 0)%R -> (q * (q - p) > 0)%R -> Cconj z * z = RtoC (- (p * q)) -> (b = a + p + q)%R ->
  A 0%nat 0%nat = RtoC a -> A 1%nat 1%nat = RtoC b -> A 0%nat 1%nat = z -> A 1%nat 0%nat = Cconj z ->
  decomposes 2 A [(a + p)%R; (a + q)%R] (vecs2 z p q).
Proof.
  intros P Q Z B A00 A11 A01 A10. set (c := (/ sqrt (p * (p - q)))%R). set (e := (/ sqrt (q * (q - p)))%R).
  assert (p <> 0 /\ q <> 0 /\ p - q <> 0 /\ q - p <> 0)%R as (p0 & q0 & pq & qp) by (repeat split; intros E; try rewrite E in *; try lra; assert (p = q) by lra; subst; lra).
  assert (cc : RtoC c * RtoC c = RtoC (/ (p * (p - q)))). { rewrite <- RtoC_mult. f_equal. unfold c. rewrite <- Rinv_mult, sqrt_sqrt by lra. reflexivity. }
  assert (ee : RtoC e * RtoC e = RtoC (/ (q * (q - p)))). { rewrite <- RtoC_mult. f_equal. unfold e. rewrite <- Rinv_mult, sqrt_sqrt by lra. reflexivity. }
  assert (cj : forall x : R, Cconj (RtoC x) = RtoC x) by apply Cconj_RtoC.
  assert (K : forall X Y : C, X - Y = 0 -> X = Y). { intros X Y H. transitivity (X - Y + Y); [ring|rewrite H; ring]. }
  split; [reflexivity|]. split; [split|].
  - intros i j Hi Hj. destruct (lt2 i Hi) as [-> | ->], (lt2 j Hj) as [-> | ->]; unfold mmul, madj, vecs2, mid; cbn [seq csum Nat.eqb]; fold c e; rewrite !Cconj_mult, ?cj.
    + transitivity (RtoC c * RtoC c * (Cconj z * z + RtoC p * RtoC p)); [ring|]. rewrite cc, Z, <- !RtoC_mult, <- RtoC_plus, <- RtoC_mult. f_equal. field. auto.
    + transitivity (RtoC c * RtoC e * (Cconj z * z + RtoC p * RtoC q)); [ring|]. rewrite Z, <- (RtoC_mult p q), <- RtoC_plus. replace (- (p * q) + p * q)%R with 0%R by ring. ring.
    + transitivity (RtoC c * RtoC e * (Cconj z * z + RtoC p * RtoC q)); [ring|]. rewrite Z, <- (RtoC_mult p q), <- RtoC_plus. replace (- (p * q) + p * q)%R with 0%R by ring. ring.
    + transitivity (RtoC e * RtoC e * (Cconj z * z + RtoC q * RtoC q)); [ring|]. rewrite ee, Z, <- !RtoC_mult, <- RtoC_plus, <- RtoC_mult. f_equal. field. auto.
  - intros i j Hi Hj. destruct (lt2 i Hi) as [-> | ->], (lt2 j Hj) as [-> | ->]; unfold mmul, madj, vecs2, mid; cbn [seq csum Nat.eqb]; fold c e; rewrite !Cconj_mult, ?cj.
    + transitivity (Cconj z * z * (RtoC c * RtoC c + RtoC e * RtoC e)); [ring|]. rewrite cc, ee, Z, <- RtoC_plus, <- RtoC_mult. f_equal. field. auto.
    + transitivity (z * (RtoC c * RtoC c * RtoC p + RtoC e * RtoC e * RtoC q)); [ring|]. rewrite cc, ee, <- !RtoC_mult, <- RtoC_plus. replace (/ (p * (p - q)) * p + / (q * (q - p)) * q)%R with 0%R by (field; auto). ring.
    + transitivity (Cconj z * (RtoC c * RtoC c * RtoC p + RtoC e * RtoC e * RtoC q)); [ring|]. rewrite cc, ee, <- !RtoC_mult, <- RtoC_plus. replace (/ (p * (p - q)) * p + / (q * (q - p)) * q)%R with 0%R by (field; auto). ring.
    + transitivity (RtoC c * RtoC c * (RtoC p * RtoC p) + RtoC e * RtoC e * (RtoC q * RtoC q)); [ring|]. rewrite cc, ee, <- !RtoC_mult, <- RtoC_plus. f_equal. field. auto.
  - intros i j Hi Hj. destruct (lt2 i Hi) as [-> | ->], (lt2 j Hj) as [-> | ->]; rewrite ?A00, ?A11, ?A01, ?A10; unfold mmul, madj, vecs2, diag; cbn [seq csum Nat.eqb nth]; fold c e; rewrite !Cconj_mult, ?cj; symmetry.
    + transitivity (Cconj z * z * (RtoC (a + p) * (RtoC c * RtoC c) + RtoC (a + q) * (RtoC e * RtoC e))); [ring|]. rewrite cc, ee, Z, <- !RtoC_mult, <- RtoC_plus, <- RtoC_mult. f_equal. field. auto.
    + transitivity (z * (RtoC (a + p) * (RtoC c * RtoC c) * RtoC p + RtoC (a + q) * (RtoC e * RtoC e) * RtoC q)); [ring|]. rewrite cc, ee, <- !RtoC_mult, <- RtoC_plus.
      replace ((a + p) * / (p * (p - q)) * p + (a + q) * / (q * (q - p)) * q)%R with 1%R by (field; auto). ring.
    + transitivity (Cconj z * (RtoC (a + p) * (RtoC c * RtoC c) * RtoC p + RtoC (a + q) * (RtoC e * RtoC e) * RtoC q)); [ring|]. rewrite cc, ee, <- !RtoC_mult, <- RtoC_plus.
      replace ((a + p) * / (p * (p - q)) * p + (a + q) * / (q * (q - p)) * q)%R with 1%R by (field; auto). ring.
    + transitivity (RtoC (a + p) * (RtoC c * RtoC c) * (RtoC p * RtoC p) + RtoC (a + q) * (RtoC e * RtoC e) * (RtoC q * RtoC q)); [ring|]. rewrite cc, ee, <- !RtoC_mult, <- RtoC_plus. f_equal. rewrite B. field. auto.
Qed.

Lemma eigh2_decomposes A : hermitian 2 A -> decomposes 2 A (fst (eigh2 2 A)) (snd (eigh2 2 A)).
Proof.
  intros H.
  assert (D : forall i, (i < 2)%nat -> A i i = RtoC (fst (A i i))).
  { intros i Hi. pose proof (H i i Hi Hi) as E. unfold madj in E. destruct (A i i) as [x y]. unfold Cconj in E. cbn in E. injection E as E. assert (y = 0%R) by lra. subst. reflexivity. }
  assert (O : A 1%nat 0%nat = Cconj (A 0%nat 1%nat)) by (rewrite <- (H 1%nat 0%nat) by lia; reflexivity).
  unfold eigh2. destruct (Ceq_dec (A 0%nat 1%nat) 0) as [Z|Z]; cbn [fst snd].
  - assert (I : meq 2 (mmul 2 mid (mmul 2 (diag [fst (A 0 0)%nat; fst (A 1 1)%nat]) (madj mid))) A).
    { rewrite (mid_l 2 _), (mmul_proper 2 _ _ (reflexivity _) _ _ (mid_adj 2)), (mid_r 2 _). intros i j Hi Hj. unfold diag.
      destruct (lt2 i Hi) as [-> | ->], (lt2 j Hj) as [-> | ->]; cbn [Nat.eqb nth]; [symmetry; apply D; lia|symmetry; exact Z|rewrite O, Z, Cconj_RtoC; reflexivity|symmetry; apply D; lia]. }
    split; [reflexivity|]. split; [|symmetry; exact I]. split; [rewrite (mmul_proper 2 _ _ (mid_adj 2) _ _ (reflexivity _)), mid_l; reflexivity|rewrite mid_l; apply mid_adj].
  - set (a := fst (A 0 0)%nat). set (b := fst (A 1 1)%nat). set (z := A 0%nat 1%nat) in *. set (w := (fst z ^ 2 + snd z ^ 2)%R). set (r := sqrt (((a - b) / 2) ^ 2 + w)).
    assert (W : (0 < w)%R). { unfold w. destruct z as [x y]. cbn [fst snd]. assert (x <> 0%R \/ y <> 0%R) as [N|N] by (destruct (Req_dec x 0); [right; intros ->; apply Z; subst; reflexivity|left; assumption]); nra. }
    assert (R2 : (r * r = ((a - b) / 2) ^ 2 + w)%R) by (unfold r; apply sqrt_sqrt; pose proof (pow2_ge_0 ((a - b) / 2)); lra).
    assert (R0 : (0 < r)%R) by (apply sqrt_lt_R0; pose proof (pow2_ge_0 ((a - b) / 2)); lra). assert (RB : (- r < (b - a) / 2 < r)%R).
    { assert (Y : ((b - a) / 2 * ((b - a) / 2) < r * r)%R) by (rewrite R2; replace ((b - a) / 2 * ((b - a) / 2))%R with (((a - b) / 2) ^ 2)%R by field; lra). generalize dependent ((b - a) / 2)%R. intros y Y. split; nra. }
    apply (vecs2_ok a b z); [|  | |lra|apply D; lia|apply D; lia|reflexivity|exact O].
    + replace (((b - a) / 2 - r) * ((b - a) / 2 - r - ((b - a) / 2 + r)))%R with ((r - (b - a) / 2) * (2 * r))%R by ring. apply Rmult_lt_0_compat; lra.
    + replace (((b - a) / 2 + r) * ((b - a) / 2 + r - ((b - a) / 2 - r)))%R with ((r + (b - a) / 2) * (2 * r))%R by ring. apply Rmult_lt_0_compat; lra.
    + rewrite conj_mul_real. fold w. f_equal. replace (- (((b - a) / 2 - r) * ((b - a) / 2 + r)))%R with (r * r - ((a - b) / 2) ^ 2)%R by field. lra.
Qed.
Example C72_eigh_exists : eigh_ok 2 (fun d A => fst (eigh2 d A)) eigh2.
Proof. split; [apply eigh2_decomposes|]. intros A H. eexists. apply eigh2_decomposes, H. Qed.

(** The states 0 and plus, and the maximally mixed state. *)
Definition e0 : nat -> C := fun i => if Nat.eqb i 0 then 1 else 0.
Definition plus_ : nat -> C := fun _ => RtoC (/ sqrt 2).
Definition mixed : mat := diag [(/ 2)%R; (/ 2)%R].
Lemma plus_norm : vdot 2 plus_ plus_ = 1.
Proof.
  unfold vdot, plus_. cbn [seq csum]. rewrite Cconj_RtoC, <- RtoC_mult, <- Rinv_mult, sqrt_sqrt by lra. rewrite Cplus_0_r, <- RtoC_plus. f_equal. lra.
Qed.
Lemma e0_norm : vdot 2 e0 e0 = 1.
Proof. unfold vdot, e0. cbn [seq csum Nat.eqb]. rewrite !Cconj_RtoC. ring. Qed.
Lemma mixed_density : density 2 mixed.
Proof.
  split.
  - apply psd_diag. intros i Hi. destruct (lt2 i Hi) as [-> | ->]; cbn; lra.
  - unfold mixed. rewrite trace_diag by reflexivity. cbn. f_equal. lra.
Qed.
Lemma mixed_decomposes : decomposes 2 mixed [(/ 2)%R; (/ 2)%R] mid.
Proof.
  pose proof (eigh2_decomposes mixed (proj1 (proj1 mixed_density))) as D. unfold eigh2 in D. destruct (Ceq_dec (mixed 0%nat 1%nat) 0) as [_|N]; [exact D|]. exfalso. apply N. reflexivity.
Qed.
Example C72_entropy_witness : Forall (density 2) [mixed; pure plus_] /\ decomposes 2 mixed [(/ 2)%R; (/ 2)%R] mid /\
  forall l, von_neumann_entropy (fun d A => fst (eigh2 d A)) 2 [mixed] (/ 100) = l -> l = [1%R].
Proof.
  split; [constructor; [exact mixed_density|constructor; [apply pure_density, plus_norm|constructor]]|]. split; [exact mixed_decomposes|]. intros l <-.
  pose proof (C72_entropy_exact 2 _ _ C72_eigh_exists (/ 100)%R [mixed] ltac:(constructor; [exact mixed_density|constructor])) as H. unfold von_neumann_entropy in *. cbn [map] in *.
  inversion H as [|? ? ? ? H1 _]; subst. rewrite (H1 _ _ mixed_decomposes); [|intros x [<-|[<-|[]]]; lra]. f_equal. unfold entropy2. cbn. rewrite ln_Rinv by lra. pose proof ln2_pos. field. lra.
Qed.
Example C72_fidelity_witness : let ev d A := fst (eigh2 d A) in
  fidelity ev eigh2 2 [pure e0; mixed] [pure e0; mixed] = Some [1%R; 1%R] /\ fidelity ev eigh2 2 [pure e0] [mixed] = Some [sqrt (/ 2)] /\
  fidelity ev eigh2 2 [pure e0] [pure plus_] = Some [(/ sqrt 2)%R] /\ purity ev 2 [mixed] 2 = [(/ 2)%R].
Proof.
  intros ev. pose proof C72_eigh_exists as Ok. fold ev in Ok. pose proof (pure_density 2 e0 e0_norm) as He. split; [|split; [|split]].
  - apply (C72_fidelity_self 2 ev eigh2 Ok). constructor; [exact He|constructor; [exact mixed_density|constructor]].
  - rewrite (proj1 (C72_fidelity_pure 2 ev eigh2 Ok e0 e0_norm) mixed mixed_density). do 2 f_equal. f_equal. unfold qform, vdot, mv, mixed, diag, e0. cbn [seq csum Nat.eqb nth]. rewrite !Cconj_RtoC. cbn. ring.
  - rewrite (proj2 (C72_fidelity_pure 2 ev eigh2 Ok e0 e0_norm) plus_ plus_norm). do 2 f_equal. unfold vdot, e0, plus_. cbn [seq csum Nat.eqb]. rewrite !Cconj_RtoC.
    replace (1 * RtoC (/ sqrt 2) + (0 * RtoC (/ sqrt 2) + 0)) with (RtoC (/ sqrt 2)) by ring. rewrite Cmod_R, Rabs_right; [reflexivity|]. apply Rle_ge, Rlt_le, Rinv_0_lt_compat, sqrt_lt_R0. lra.
  - pose proof (C72_purity 2 ev eigh2 Ok [mixed] 2 ltac:(constructor; [apply mixed_density|constructor])) as H. unfold purity in *. cbn [map] in *. inversion H as [|? ? ? ? H1 _]; subst. f_equal. apply RtoC_inj. transitivity (trace 2 (mpow 2 mixed 2)); [exact H1|].
    cbn [mpow]. rewrite (trace_proper 2 _ _ (mmul_proper 2 _ _ (reflexivity _) _ _ (mid_r 2 mixed))). unfold trace, mmul, mixed, diag. cbn [seq csum Nat.eqb nth]. rewrite <- RtoC_mult. rewrite !Cmult_0_l, !Cplus_0_r, !Cplus_0_l, <- RtoC_plus. f_equal. field.
Qed.
(** The flip |0> <-> |1> is a basis change; the states 0 and i 0 are equivalent, 0 and plus are not. *)
Example C72_equivalent_witness : normalised 2 [RtoC 1; RtoC 0] /\ normalised 2 [Ci; RtoC 0] /\ equivalent_state [[RtoC 1; RtoC 0]] [[Ci; RtoC 0]] 0 0 = true /\
  equivalent_state [[RtoC 1; RtoC 0]] [[RtoC (/ sqrt 2); RtoC (/ sqrt 2)]] 0 (/ 4) = false.
Proof.
  assert (N1 : normalised 2 [RtoC 1; RtoC 0]). { split; [reflexivity|]. unfold vdot, entry. cbn [seq csum nth]. rewrite !Cconj_RtoC. ring. }
  assert (N2 : normalised 2 [Ci; RtoC 0]). { split; [reflexivity|]. unfold vdot, entry. cbn [seq csum nth]. unfold Cconj, Ci, RtoC, Cplus, Cmult. cbn. f_equal; ring. }
  split; [exact N1|]. split; [exact N2|]. split.
  - apply (proj1 (C72_equivalent_phase 2 [[RtoC 1; RtoC 0]] [[Ci; RtoC 0]] ltac:(constructor; [exact N1|constructor]) ltac:(constructor; [exact N2|constructor]) eq_refl)). constructor; [|constructor]. exists Ci. split; [unfold Cmod, Ci; cbn; replace (0 * (0 * 1) + 1 * (1 * 1))%R with 1%R by ring; apply sqrt_1|].
    intros i Hi. destruct (lt2 i Hi) as [-> | ->]; unfold entry; cbn [nth]; ring.
  - unfold equivalent_state, overlap_exact. cbn [combine forallb fst snd csum]. rewrite !Cconj_RtoC. replace (1 * RtoC (/ sqrt 2) + (0 * RtoC (/ sqrt 2) + 0)) with (RtoC (/ sqrt 2)) by ring.
    rewrite Cmod_R, RPow_abs, Rabs_R1. replace ((/ sqrt 2) ^ 2)%R with (/ 2)%R by (cbn [pow]; rewrite Rmult_1_r, <- Rinv_mult, sqrt_sqrt by lra; reflexivity).
    rewrite (Rabs_right (/ 2)) by lra. rewrite Rabs_left by lra. destruct (Rle_dec _ _); [lra|reflexivity].
Qed.
Example C72_unitary_witness : unitary 2 (fun i j => if Nat.eqb (i + j) 1 then 1 else 0).
Proof.
  split; intros i j Hi Hj; destruct (lt2 i Hi) as [-> | ->], (lt2 j Hj) as [-> | ->]; unfold mmul, madj, mid; cbn [seq csum Nat.eqb Nat.add]; rewrite ?Cconj_RtoC; ring.
Qed.

Print Assumptions C72_purity.
Print Assumptions C72_purity_pure.
Print Assumptions C72_entropy.
Print Assumptions C72_entropy_exact.
Print Assumptions C72_entropy_pure_refuted.
Print Assumptions C72_fidelity.
Print Assumptions C72_fidelity_roots.
Print Assumptions C72_fidelity_short_batch.
Print Assumptions C72_fidelity_symmetric.
Print Assumptions C72_fidelity_self.
Print Assumptions C72_fidelity_pure.
Print Assumptions C72_basis_change.
Print Assumptions C72_equivalent_state.
Print Assumptions C72_equivalent_phase.
