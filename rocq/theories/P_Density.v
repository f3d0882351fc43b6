(** C72: purity, entropy and fidelity of density matrices. *)
From Coq Require Import Reals List Arith Bool Lia Lra Setoid Morphisms.
From Coquelicot Require Import Coquelicot.
From Coq Require Import List.
From Verif Require Import S_Ops L_Ops S_Mat L_Mat M_Basis M_Information P_Information M_Overlap M_Density.
Import ListNotations.
Open Scope R_scope.
Open Scope C_scope.

#[local] Existing Instance meq_equiv.
#[local] Existing Instance mmul_proper.
#[local] Existing Instance madj_proper.
#[local] Existing Instance mscale_proper.
#[local] Existing Instance trace_proper.

(** What torch.linalg.eigh and eigvalsh do on Hermitian matrices of dimension [d]. *)
Definition eigh_ok (d : nat) (eigvalsh : nat -> mat -> list R) (eigh : nat -> mat -> list R * mat) : Prop :=
  (forall A, hermitian d A -> decomposes d A (fst (eigh d A)) (snd (eigh d A))) /\
  (forall A, hermitian d A -> exists U, decomposes d A (eigvalsh d A) U).

(** ** Polynomials of a matrix: the sum of a function over the eigenvalues does not depend on the decomposition *)
Fixpoint peval (p : list R) (x : R) : R := match p with [] => 0%R | a :: r => (a + x * peval r x)%R end.
Fixpoint padd (p q : list R) : list R := match p, q with [], _ => q | _, [] => p | a :: p', b :: q' => (a + b)%R :: padd p' q' end.
Lemma padd_eval p : forall q x, peval (padd p q) x = (peval p x + peval q x)%R.
Proof. induction p as [|a p IH]; intros [|b q] x; cbn [padd peval]; try lra. rewrite IH. lra. Qed.
Definition pscale (c : R) (p : list R) : list R := map (Rmult c) p.
Lemma pscale_eval c p x : peval (pscale c p) x = (c * peval p x)%R.
Proof. induction p as [|a p IH]; cbn [pscale map peval]; [lra|]. fold (pscale c p). rewrite IH. ring. Qed.
(** (x - y) p *)
Definition pfactor (y : R) (p : list R) : list R := padd (0%R :: p) (pscale (- y)%R p).
Lemma pfactor_eval y p x : peval (pfactor y p) x = ((x - y) * peval p x)%R.
Proof. unfold pfactor. rewrite padd_eval, pscale_eval. cbn [peval]. ring. Qed.
Fixpoint proots (l : list R) : list R := match l with [] => [1%R] | y :: r => pfactor y (proots r) end.
Lemma proots_in l x : In x l -> peval (proots l) x = 0%R.
Proof. induction l as [|y l IH]; [intros []|]. intros [->|H]; cbn [proots]; rewrite pfactor_eval; [ring|rewrite IH by exact H; ring]. Qed.
Lemma proots_out l x : ~ In x l -> peval (proots l) x <> 0%R.
Proof.
  induction l as [|y l IH]; intros H; cbn [proots]; [cbn; lra|]. rewrite pfactor_eval. apply Rmult_integral_contrapositive. split; [|apply IH; intros I; apply H; right; exact I].
  intros E. apply H. left. lra.
Qed.
Lemma interpolate (f : R -> R) l : exists p, forall x, In x l -> peval p x = f x.
Proof.
  induction l as [|y l (p & IH)]; [exists []; intros x []|]. destruct (in_dec Req_EM_T y l) as [I|I].
  - exists p. intros x [<-|H]; apply IH; assumption.
  - exists (padd p (pscale ((f y - peval p y) / peval (proots l) y)%R (proots l))). intros x H. rewrite padd_eval, pscale_eval.
    destruct (in_dec Req_EM_T x l) as [J|J]; [rewrite (proots_in l x J), IH by exact J; ring|]. destruct H as [<-|H]; [|contradiction]. field. apply proots_out, I.
Qed.
Lemma peval_sum p l : rsum (map (peval p) l) = rsum (map (fun k => nth k p 0%R * rsum (map (fun x => x ^ k) l))%R (seq 0 (length p))).
Proof.
  assert (E : forall p x, peval p x = rsum (map (fun k => nth k p 0 * x ^ k)%R (seq 0 (length p)))).
  { clear. induction p as [|a p IH]; intros x; [reflexivity|]. cbn [peval length seq map rsum fold_right nth pow]. rewrite <- seq_shift, map_map. cbn [nth]. rewrite IH.
    unfold rsum. assert (Q : forall ks, (x * fold_right Rplus 0 (map (fun k => nth k p 0 * x ^ k) ks) = fold_right Rplus 0 (map (fun k => nth k p 0 * x ^ S k) ks))%R).
    { induction ks as [|k ks IH']; cbn [map fold_right]; [ring|]. rewrite <- IH'. cbn [pow]. ring. }
    rewrite Q. cbn [pow]. ring. }
  unfold rsum. induction l as [|x l IH]; cbn [map fold_right].
  - induction (seq 0 (length p)) as [|k ks IH']; cbn [map fold_right]; [reflexivity|]. rewrite <- IH'. ring.
  - rewrite IH, E. unfold rsum. generalize (seq 0 (length p)) as ks. clear. intros ks. induction ks as [|k ks IH']; cbn [map fold_right]; [ring|]. rewrite <- IH'. ring.
Qed.
Lemma map_ext_rsum (f g : R -> R) l : (forall x, In x l -> f x = g x) -> rsum (map f l) = rsum (map g l).
Proof. intros H. f_equal. apply map_ext_in, H. Qed.

(** Matrices whose powers have the same traces have the same eigenvalues. *)
Lemma spectral_sum d A B l l' U U' (f : R -> R) : decomposes d A l U -> decomposes d B l' U' -> (forall n, trace d (mpow d A n) = trace d (mpow d B n)) ->
  rsum (map f l) = rsum (map f l').
Proof.
  intros D D' T. destruct (interpolate f (l ++ l')) as (p & Hp).
  rewrite (map_ext_rsum f (peval p) l), (map_ext_rsum f (peval p) l') by (intros x H; symmetry; apply Hp, in_app_iff; auto).
  rewrite !peval_sum. f_equal. apply map_ext. intros k. f_equal.
  pose proof (trace_eig d _ _ _ (pow_eig d A l U k D)) as E. pose proof (trace_eig d _ _ _ (pow_eig d B l' U' k D')) as E'.
  rewrite T, E' in E. apply RtoC_inj in E. symmetry. exact E.
Qed.
Lemma mpow_ext d A B n : meq d A B -> meq d (mpow d A n) (mpow d B n).
Proof. intros H. induction n as [|n IH]; cbn [mpow]; [reflexivity|apply mmul_proper; assumption]. Qed.
(** tr (AB)^n = tr (BA)^n *)
Lemma mpow_shift d A B n : meq d (mmul d (mpow d (mmul d A B) n) A) (mmul d A (mpow d (mmul d B A) n)).
Proof.
  induction n as [|n IH]; cbn [mpow]; [rewrite mid_l, mid_r; reflexivity|]. rewrite !mmul_assoc, IH. reflexivity.
Qed.
Lemma mpow_trace_comm d A B n : trace d (mpow d (mmul d A B) n) = trace d (mpow d (mmul d B A) n).
Proof.
  destruct n as [|n]; [reflexivity|]. cbn [mpow]. transitivity (trace d (mmul d A (mmul d B (mpow d (mmul d A B) n)))); [apply trace_proper, mmul_assoc|].
  rewrite trace_comm. apply trace_proper. rewrite !mmul_assoc. apply mmul_proper; [reflexivity|]. apply mpow_shift.
Qed.

Definition msub (A B : mat) : mat := fun i j => A i j - B i j.
Lemma csum_minus {A} (f g : A -> C) l : csum (fun x => f x - g x) l = csum f l - csum g l.
Proof. induction l as [|x l IH]; cbn [csum]; [ring|]. rewrite IH. ring. Qed.
Lemma msub_l d A B C0 : meq d (mmul d (msub A B) C0) (msub (mmul d A C0) (mmul d B C0)).
Proof. intros i j _ _. unfold mmul, msub. rewrite <- csum_minus. apply csum_ext. intros k _. ring. Qed.
Lemma msub_r d A B C0 : meq d (mmul d C0 (msub A B)) (msub (mmul d C0 A) (mmul d C0 B)).
Proof. intros i j _ _. unfold mmul, msub. rewrite <- csum_minus. apply csum_ext. intros k _. ring. Qed.
#[local] Instance msub_proper d : Proper (meq d ==> meq d ==> meq d) msub.
Proof. intros A A' HA B B' HB i j Hi Hj. unfold msub. rewrite HA, HB by assumption. reflexivity. Qed.
Lemma trace_sub d A B : trace d (msub A B) = trace d A - trace d B.
Proof. apply csum_minus. Qed.
Lemma madj_sub d A B : meq d (madj (msub A B)) (msub (madj A) (madj B)).
Proof. intros i j _ _. unfold madj, msub. apply Cconj_minus. Qed.
Lemma mid_adj d : meq d (madj mid) mid.
Proof. intros i j _ _. unfold madj, mid. rewrite Nat.eqb_sym. destruct (Nat.eqb i j); apply Cconj_RtoC. Qed.
Lemma trace_adj d A : trace d (madj A) = Cconj (trace d A).
Proof. unfold trace, madj. rewrite csum_conj. reflexivity. Qed.
Lemma trace_sq_pos d A : (0 <= fst (trace d (mmul d (madj A) A)))%R.
Proof. unfold trace, mmul, madj. apply sum_pos. intros i _. apply sum_pos. intros k _. rewrite conj_mul_fst. nra. Qed.
Lemma trace_psd_pos d A : psd d A -> (0 <= fst (trace d A))%R.
Proof.
  intros (_ & P). unfold trace. apply sum_pos. intros i Hi. apply in_idx in Hi. specialize (P (fun k => if Nat.eqb i k then 1 else 0)).
  replace (A i i) with (qform d A (fun k => if Nat.eqb i k then 1 else 0)); [exact P|]. unfold qform, vdot, mv.
  transitivity (csum (fun k => if Nat.eqb i k then csum (fun j => if Nat.eqb i j then A k j else 0) (seq 0 d) else 0) (seq 0 d)).
  - apply csum_ext. intros k _. assert (Z : csum (fun j => A k j * (if Nat.eqb i j then 1 else 0)) (seq 0 d) = csum (fun j => if Nat.eqb i j then A k j else 0) (seq 0 d)).
    { apply csum_ext. intros j _. destruct (Nat.eqb i j); ring. }
    rewrite Z. destruct (Nat.eqb i k); rewrite Cconj_RtoC; ring.
  - rewrite (csum_pick d (fun k => csum (fun j => if Nat.eqb i j then A k j else 0) (seq 0 d)) i Hi). apply (csum_pick d (fun j => A i j) i Hi).
Qed.

(** ** Pure states *)
Definition pure (v : nat -> C) : mat := outer v v.
Lemma outer_mul d u v A w x : meq d (mmul d (outer u v) (mmul d A (outer w x))) (mscale (vdot d v (mv d A w)) (outer u x)).
Proof.
  intros i j _ _. unfold mmul, outer, mscale, vdot, mv. rewrite <- csum_scal_r. apply csum_ext. intros k _.
  transitivity (u i * Cconj (v k) * (csum (fun j => A k j * w j) (seq 0 d) * Cconj (x j))); [|ring]. f_equal. rewrite <- csum_scal_r. apply csum_ext. intros m _. ring.
Qed.
Lemma outer_mul2 d u v w x : meq d (mmul d (outer u v) (outer w x)) (mscale (vdot d v w) (outer u x)).
Proof. intros i j _ _. unfold mmul, outer, mscale, vdot. rewrite <- csum_scal_r. apply csum_ext. intros k _. ring. Qed.
Lemma pure_adj d v : meq d (madj (pure v)) (pure v).
Proof. intros i j _ _. unfold madj, pure, outer. rewrite Cconj_mult, Cconj_conj. ring. Qed.
Lemma trace_pure d v : trace d (pure v) = vdot d v v.
Proof. unfold trace, pure, outer, vdot. apply csum_ext. intros k _. ring. Qed.
Lemma vdot_conj d u v : vdot d v u = Cconj (vdot d u v).
Proof. unfold vdot. rewrite csum_conj. apply csum_ext. intros i _. rewrite Cconj_mult, Cconj_conj. ring. Qed.
Lemma qform_pure d v w : qform d (pure v) w = RtoC (Cmod (vdot d v w) ^ 2).
Proof.
  unfold qform. transitivity (vdot d w v * vdot d v w).
  - unfold vdot at 1 2. rewrite <- csum_scal_r. apply csum_ext. intros i _. unfold mv, pure, outer, vdot. rewrite <- Cmult_assoc. f_equal. rewrite <- csum_scal. apply csum_ext. intros j _. ring.
  - rewrite (vdot_conj d v w), conj_mul_real. f_equal. unfold Cmod. rewrite pow2_sqrt; [reflexivity|]. nra.
Qed.
Lemma psd_scale d c A : (0 <= c)%R -> psd d A -> psd d (mscale (RtoC c) A).
Proof.
  intros Hc (H & P). split.
  - intros i j Hi Hj. unfold madj, mscale. rewrite Cconj_mult, Cconj_RtoC. f_equal. apply H; assumption.
  - intros v. assert (E : qform d (mscale (RtoC c) A) v = RtoC c * qform d A v).
    { unfold qform, vdot, mv, mscale. rewrite <- csum_scal. apply csum_ext. intros i _.
      transitivity (Cconj (v i) * (RtoC c * csum (fun j => A i j * v j) (seq 0 d))); [f_equal; rewrite <- csum_scal; apply csum_ext; intros j _; ring|ring]. }
    rewrite E. specialize (P v). destruct (qform d A v) as [x y]. cbn in P |- *. nra.
Qed.
Lemma psd_pure d v : psd d (pure v).
Proof. split; [apply pure_adj|]. intros w. rewrite qform_pure. cbn. pose proof (Cmod_ge_0 (vdot d v w)). nra. Qed.
Lemma pure_density d v : vdot d v v = 1 -> density d (pure v).
Proof. intros H. split; [apply psd_pure|rewrite trace_pure; exact H]. Qed.

(** ** Purity *)
Theorem C72_purity : forall d eigvalsh eigh, eigh_ok d eigvalsh eigh -> forall rho order, Forall (hermitian d) rho ->
  Forall2 (fun r x => RtoC x = trace d (mpow d r order)) rho (purity eigvalsh d rho order).
Proof.
  intros d eigvalsh eigh (_ & Ev) rho order H. unfold purity. induction H as [|r rho Hr _ IH]; cbn [map]; constructor; [|exact IH].
  destruct (Ev r Hr) as (U & D). symmetry. apply (trace_eig d _ _ _ (pow_eig d r _ U order D)).
Qed.
Lemma mscale_1 d A : meq d (mscale 1 A) A.
Proof. intros i j _ _. unfold mscale. ring. Qed.
(** Every purity of a pure state is one. *)
Theorem C72_purity_pure : forall d eigvalsh eigh, eigh_ok d eigvalsh eigh -> forall v order, vdot d v v = 1 -> (1 <= order)%nat ->
  purity eigvalsh d [pure v] order = [1%R].
Proof.
  intros d eigvalsh eigh Ok v order Hv Ho. pose proof (C72_purity d eigvalsh eigh Ok [pure v] order ltac:(constructor; [apply pure_adj|constructor])) as P.
  inversion P as [|r x rs xs Hx Hxs E1 E2]; subst. inversion Hxs; subst. unfold purity. cbn [map]. f_equal. apply RtoC_inj. rewrite Hx.
  assert (E : forall n, meq d (mpow d (pure v) (S n)) (pure v)).
  { induction n as [|n IH]; [cbn [mpow]; apply mid_r|]. change (mpow d (pure v) (S (S n))) with (mmul d (pure v) (mpow d (pure v) (S n))). rewrite IH. unfold pure. rewrite outer_mul2, Hv, mscale_1. reflexivity. }
  destruct order as [|n]; [lia|]. rewrite (trace_proper d _ _ (E n)), trace_pure. exact Hv.
Qed.

(** ** Entropy *)
(** -sum_i l_i log2 l_i (with 0 log 0 = 0) *)
Definition entropy2 (l : list R) : R := rsum (map (fun p => - p * ln p / ln 2)%R l).
Lemma ln2_pos : (0 < ln 2)%R. Proof. rewrite <- ln_1. apply ln_increasing; lra. Qed.
Lemma eig_facts d r l U : density d r -> decomposes d r l U -> (forall x, In x l -> 0 <= x <= 1)%R /\ rsum l = 1%R /\ length l = d.
Proof.
  intros (P & T) D. pose proof (trace_eig d r l U D) as E. rewrite T in E. apply RtoC_inj in E. assert (Hl : length l = d) by apply D.
  assert (Hp : forall x, In x l -> (0 <= x)%R). { intros x Hx. destruct (In_nth l x 0%R Hx) as (i & Hi & <-). apply (eig_pos d r l U D P). lia. }
  repeat split; [apply Hp; exact H| |symmetry; exact E|exact Hl].
  assert (Q : forall m, (forall y, In y m -> 0 <= y)%R -> In x m -> (x <= rsum m)%R).
  { clear. unfold rsum. induction m as [|y m IH]; intros Hm Hx; [destruct Hx|]. cbn [fold_right].
    assert (0 <= fold_right Rplus 0 m)%R. { assert (Hm' : forall y, In y m -> (0 <= y)%R) by (intros z Hz; apply Hm; right; exact Hz). clear - Hm'. induction m as [|z m IH]; cbn; [lra|]. pose proof (Hm' z (or_introl eq_refl)). assert (0 <= fold_right Rplus 0 m)%R by (apply IH; intros y Hy; apply Hm'; right; exact Hy). lra. }
    pose proof (Hm y (or_introl eq_refl)). destruct Hx as [<-|Hx]; [lra|]. assert (x <= fold_right Rplus 0 m)%R by (apply IH; [intros z Hz; apply Hm; right; exact Hz|exact Hx]). lra. }
  specialize (Q l Hp H). unfold rsum in Q. rewrite <- E in Q. exact Q.
Qed.
Lemma entropy_row_eq eigvalsh d eps r l U : (exists V, decomposes d r (eigvalsh d r) V) -> density d r -> decomposes d r l U ->
  entropy_row eigvalsh d eps r = rsum (map (fun x => let y := if rltb x eps then eps else x in (- y * ln y / ln 2)%R) l).
Proof.
  intros (V & D) Hr D'. destruct (eig_facts d r _ V Hr D) as (_ & S1 & _). unfold entropy_row. rewrite S1.
  transitivity (rsum (map (fun x => let y := if rltb x eps then eps else x in (- y * ln y / ln 2)%R) (eigvalsh d r))).
  - clear. unfold rsum. induction (eigvalsh d r) as [|x m IH]; cbn [map fold_right]; [ring|]. replace (x / 1)%R with x by field. cbn zeta in IH |- *. rewrite <- IH. unfold Rdiv. ring.
  - apply (spectral_sum d r r _ l V U _ D D'). reflexivity.
Qed.
Lemma indicator_count (p : R -> bool) c l : rsum (map (fun x => if p x then c else 0%R) l) = (INR (length (filter p l)) * c)%R.
Proof.
  unfold rsum. induction l as [|x l IH]; cbn [map fold_right filter]; [cbn; ring|]. rewrite IH. destruct (p x); cbn [length]; [rewrite S_INR; ring|ring].
Qed.

(** Whatever the spectral decomposition, the result is -sum l log2 l, plus at most -eps log2 eps for every eigenvalue below eps. *)
Theorem C72_entropy : forall d eigvalsh eigh, eigh_ok d eigvalsh eigh -> forall eps rho, (0 < eps <= exp (-1))%R -> Forall (density d) rho ->
  Forall2 (fun r s => forall l U, decomposes d r l U ->
    (entropy2 l <= s <= entropy2 l + INR (length (filter (fun x => rltb x eps) l)) * (- eps * ln eps / ln 2))%R /\
    (0 <= entropy2 l <= ln (INR d) / ln 2)%R) rho (von_neumann_entropy eigvalsh d rho eps).
Proof.
  intros d eigvalsh eigh (_ & Ev) eps rho (E0 & E1) H. unfold von_neumann_entropy. induction H as [|r rho Hr _ IH]; cbn [map]; constructor; [|exact IH]. clear IH rho.
  intros l U D. rewrite (entropy_row_eq eigvalsh d eps r l U (Ev r (proj1 (proj1 Hr))) Hr D). destruct (eig_facts d r l U Hr D) as (B & S1 & Hl). pose proof ln2_pos as L2.
  assert (I2 : (0 < / ln 2)%R) by (apply Rinv_0_lt_compat; exact L2).
  assert (LE : (ln eps <= -1)%R). { rewrite <- (ln_exp (-1)). destruct E1 as [E1| ->]; [left; apply ln_increasing; lra|right; reflexivity]. }
  assert (Hx : forall x, In x l -> (- x * ln x / ln 2 <= (let y := if rltb x eps then eps else x in - y * ln y / ln 2) <= - x * ln x / ln 2 + (if rltb x eps then - eps * ln eps / ln 2 else 0))%R).
  { intros x I. specialize (B x I). unfold rltb. destruct (Rlt_dec x eps) as [G|G]; cbn zeta; [|lra]. pose proof (tangent eps x E0 (proj1 B)) as T.
    assert (- x * ln x <= - eps * ln eps)%R by nra. pose proof (plogp_nonneg x B). unfold Rdiv. split; [apply Rmult_le_compat_r; lra|]. assert (0 <= - x * ln x * / ln 2)%R by (apply Rmult_le_pos; lra). lra. }
  split; [split|split].
  - unfold entropy2. apply rsum_le. intros x I. apply Hx, I.
  - unfold entropy2. rewrite <- indicator_count, <- rsum_plus. apply rsum_le. intros x I. apply Hx, I.
  - unfold entropy2. assert (Q : rsum (map (fun _ : R => 0%R) l) = 0%R) by (rewrite rsum_const; lra). rewrite <- Q at 1. apply rsum_le. intros x I. pose proof (plogp_nonneg x (B x I)). unfold Rdiv. apply Rmult_le_pos; lra.
  - assert (D0 : (0 < INR d)%R). { destruct d as [|d]; [destruct l; [cbn in S1; lra|discriminate]|]. apply lt_0_INR. lia. }
    unfold entropy2. apply Rle_trans with (rsum (map (fun x => (/ INR d - x + x * ln (INR d)) / ln 2)%R l)).
    + apply rsum_le. intros x I. pose proof (tangent (/ INR d)%R x ltac:(apply Rinv_0_lt_compat; exact D0) (proj1 (B x I))) as T. rewrite ln_Rinv in T by exact D0. unfold Rdiv. apply Rmult_le_compat_r; lra.
    + assert (Q : rsum (map (fun x => (/ INR d - x + x * ln (INR d)) / ln 2)%R l) = ((INR (length l) * / INR d - rsum l + rsum l * ln (INR d)) / ln 2)%R).
      { clear. unfold rsum. induction l as [|x l IH]; cbn [map fold_right length]; [cbn; unfold Rdiv; ring|]. rewrite IH, S_INR. unfold Rdiv. ring. }
      rewrite Q, S1, Hl. right. field. split; lra.
Qed.
(** It is exact when no eigenvalue is below eps. *)
Theorem C72_entropy_exact : forall d eigvalsh eigh, eigh_ok d eigvalsh eigh -> forall eps rho, Forall (density d) rho ->
  Forall2 (fun r s => forall l U, decomposes d r l U -> (forall x, In x l -> (eps <= x)%R) -> s = entropy2 l) rho (von_neumann_entropy eigvalsh d rho eps).
Proof.
  intros d eigvalsh eigh (_ & Ev) eps rho H. unfold von_neumann_entropy. induction H as [|r rho Hr _ IH]; cbn [map]; constructor; [|exact IH].
  intros l U D B. rewrite (entropy_row_eq eigvalsh d eps r l U (Ev r (proj1 (proj1 Hr))) Hr D). unfold entropy2. apply map_ext_rsum. intros x I. unfold rltb. specialize (B x I).
  destruct (Rlt_dec x eps); [lra|reflexivity].
Qed.
(** [von_neumann_entropy] is documented as -tr(rho log2 rho), which is zero exactly on pure states.  A pure state of dimension two or more
    gets (d - 1)(-eps log2 eps), never zero: the zero eigenvalues are replaced by eps and their terms are added. *)
Theorem C72_entropy_pure_refuted : forall d eigvalsh eigh, eigh_ok d eigvalsh eigh -> forall eps v, vdot d v v = 1 -> (2 <= d)%nat -> (0 < eps < 1)%R ->
  von_neumann_entropy eigvalsh d [pure v] eps = [((INR d - 1) * (- eps * ln eps / ln 2))%R] /\ (0 < (INR d - 1) * (- eps * ln eps / ln 2))%R.
Proof.
  intros d eigvalsh eigh (Eh & Ev) eps v Hv Hd (E0 & E1). pose proof (pure_density d v Hv) as Hr. destruct (Ev (pure v) (pure_adj d v)) as (U & D).
  assert (L2 := ln2_pos). assert (LE : (ln eps < 0)%R) by (rewrite <- ln_1; apply ln_increasing; lra).
  split.
  - unfold von_neumann_entropy. cbn [map]. f_equal. rewrite (entropy_row_eq eigvalsh d eps (pure v) _ U (ex_intro _ U D) Hr D).
    destruct (eig_facts d _ _ U Hr D) as (B & S1 & Hl).
    assert (Z : forall x, In x (eigvalsh d (pure v)) -> (x = 0 \/ x = 1)%R).
    { intros x I. destruct (In_nth _ x 0%R I) as (i & Hi & <-). rewrite Hl in Hi. pose proof (eig_of d _ _ U D) as G.
      assert (GG : meq d (mmul d (diag (eigvalsh d (pure v))) (diag (eigvalsh d (pure v)))) (diag (eigvalsh d (pure v)))).
      { rewrite <- G. destruct D as (_ & (U1 & U2) & _). transitivity (mmul d (madj U) (mmul d (mmul d (pure v) (mmul d (mmul d U (madj U)) (pure v))) U)); [rewrite !mmul_assoc; reflexivity|].
        rewrite U2, mid_l. unfold pure at 1 2. rewrite outer_mul2, Hv, mscale_1. reflexivity. }
      rewrite diag_mul in GG. specialize (GG i i Hi Hi). cbn beta in GG. unfold diag in GG. rewrite Nat.eqb_refl in GG. apply RtoC_inj in GG. assert (((nth i (eigvalsh d (pure v)) 0) * (nth i (eigvalsh d (pure v)) 0 - 1) = 0)%R) by lra.
      apply Rmult_integral in H. destruct H; [left; lra|right; lra]. }
    rewrite (map_ext_rsum _ (fun x => (- eps * ln eps / ln 2 * (1 - x))%R)).
    + clear B. transitivity ((INR (length (eigvalsh d (pure v))) - rsum (eigvalsh d (pure v))) * (- eps * ln eps / ln 2))%R; [|rewrite Hl, S1; reflexivity].
      clear. generalize (eigvalsh d (pure v)) as m. intros m. unfold rsum. induction m as [|x m IH]; cbn [map fold_right length]; [cbn; ring|]. rewrite IH, S_INR. ring.
    + intros x I. unfold rltb. destruct (Z x I) as [-> | ->]; destruct (Rlt_dec _ eps) as [G|G]; cbn zeta; try lra. rewrite ln_1. unfold Rdiv. ring.
  - apply Rmult_lt_0_compat; [pose proof (le_INR 2 d Hd) as G; cbn in G; lra|]. unfold Rdiv. apply Rmult_lt_0_compat; [nra|apply Rinv_0_lt_compat; exact L2].
Qed.

(** ** Fidelity *)
Lemma clamp_id l : (forall x, In x l -> (0 <= x)%R) -> clamp0 l = l.
Proof.
  intros H. unfold clamp0. rewrite <- (map_id l) at 2. apply map_ext_in. intros x I. unfold rltb. specialize (H x I). destruct (Rlt_dec x 0); [lra|reflexivity].
Qed.
Lemma nth_in_pos d l : length l = d -> (forall i, (i < d)%nat -> (0 <= nth i l 0)%R) -> forall x, In x l -> (0 <= x)%R.
Proof. intros Hl H x I. destruct (In_nth l x 0%R I) as (i & Hi & <-). apply H. lia. Qed.

Section Fid.
  Variables (d : nat) (eigvalsh : nat -> mat -> list R) (eigh : nat -> mat -> list R * mat).
  Hypothesis Ok : eigh_ok d eigvalsh eigh.
  Notation "A == B" := (meq d A B) (at level 70).
  Notation "A ** B" := (mmul d A B) (at level 40, left associativity).

  Lemma sqrt_rho_root rho R0 : psd d R0 -> R0 ** R0 == rho -> sqrt_rho eigh d rho == R0.
  Proof.
    intros P E. assert (H : hermitian d rho). { unfold hermitian. rewrite <- E, madj_mul. destruct P as (H & _). unfold hermitian in H. rewrite H. reflexivity. }
    pose proof (proj1 Ok rho H) as D. destruct (root_unique d R0 rho _ _ P E D) as (Q & Pos). unfold sqrt_rho. destruct (eigh d rho) as [l U]. cbn [fst snd] in *.
    rewrite clamp_id by (apply (nth_in_pos d); [apply D|exact Pos]). symmetry. exact Q.
  Qed.
  Lemma fidelity_eig rho sigma R0 l U : psd d R0 -> R0 ** R0 == rho -> psd d sigma -> decomposes d (R0 ** (sigma ** R0)) l U ->
    fidelity_row eigvalsh eigh d rho sigma = rsum (map sqrt l).
  Proof.
    intros P E Ps D. unfold fidelity_row. set (M := sqrt_rho eigh d rho ** (sigma ** sqrt_rho eigh d rho)).
    assert (EM : M == R0 ** (sigma ** R0)) by (unfold M; rewrite (sqrt_rho_root rho R0 P E); reflexivity).
    assert (PM : psd d M). { apply (psd_ext d (R0 ** (sigma ** R0))); [symmetry; exact EM|]. apply psd_sandwich; [exact Ps|apply P]. }
    destruct (proj2 Ok M (proj1 PM)) as (V & DV). rewrite clamp_id. 2: { apply (nth_in_pos d); [apply DV|]. apply (eig_pos d M _ V DV PM). }
    apply (spectral_sum d M (R0 ** (sigma ** R0)) _ _ V U _ DV D). intros n. apply trace_proper, mpow_ext, EM.
  Qed.
  Lemma fidelity_trace rho sigma R0 S0 : psd d R0 -> R0 ** R0 == rho -> psd d sigma -> psd d S0 -> S0 ** S0 == R0 ** (sigma ** R0) ->
    RtoC (fidelity_row eigvalsh eigh d rho sigma) = trace d S0.
  Proof.
    intros P E Ps P2 E2. assert (PM : psd d (R0 ** (sigma ** R0))) by (apply psd_sandwich; [exact Ps|apply P]).
    destruct (proj2 Ok _ (proj1 PM)) as (V & DV). rewrite (fidelity_eig rho sigma R0 _ V P E Ps DV).
    destruct (root_unique d S0 _ _ V P2 E2 DV) as (Q & _). rewrite Q, trace_conj by apply DV. symmetry. apply trace_diag. unfold roots. rewrite map_length. apply DV.
  Qed.
  Lemma root_ex A : psd d A -> exists R0, psd d R0 /\ R0 ** R0 == A.
  Proof.
    intros P. destruct (proj2 Ok A (proj1 P)) as (U & D). eexists. apply (root_exists d A _ U D). apply (eig_pos d A _ U D P).
  Qed.
  Lemma fidelity_sym rho sigma : psd d rho -> psd d sigma -> fidelity_row eigvalsh eigh d rho sigma = fidelity_row eigvalsh eigh d sigma rho.
  Proof.
    intros Pr Ps. destruct (root_ex rho Pr) as (R0 & PR & ER). destruct (root_ex sigma Ps) as (T & PT & ET).
    assert (P1 : psd d (R0 ** (sigma ** R0))) by (apply psd_sandwich; [exact Ps|apply PR]). assert (P2 : psd d (T ** (rho ** T))) by (apply psd_sandwich; [exact Pr|apply PT]).
    destruct (proj2 Ok _ (proj1 P1)) as (U & D1). destruct (proj2 Ok _ (proj1 P2)) as (V & D2).
    rewrite (fidelity_eig rho sigma R0 _ U PR ER Ps D1), (fidelity_eig sigma rho T _ V PT ET Pr D2).
    apply (spectral_sum d _ _ _ _ U V _ D1 D2). intros n.
    transitivity (trace d (mpow d ((R0 ** T) ** (T ** R0)) n)).
    - apply trace_proper, mpow_ext. rewrite <- ET, !mmul_assoc. reflexivity.
    - rewrite mpow_trace_comm. apply trace_proper, mpow_ext. rewrite <- ER, !mmul_assoc. reflexivity.
  Qed.
  (** The matrix W with columns X v_i / s_i. *)
  Definition inv_or_0 (x : R) : R := if Req_EM_T x 0 then 0%R else (/ x)%R.
  Lemma nth_map0 (f : R -> R) l i : f 0%R = 0%R -> nth i (map f l) 0%R = f (nth i l 0%R).
  Proof. intros H. rewrite <- H at 1. apply map_nth. Qed.
  Lemma inv0 : inv_or_0 0 = 0%R. Proof. unfold inv_or_0. destruct (Req_EM_T 0 0); [reflexivity|congruence]. Qed.
  Lemma diag_map_mul (f g h : R -> R) l : f 0%R = 0%R -> g 0%R = 0%R -> h 0%R = 0%R -> (forall x, In x l -> (f x * g x = h x)%R) -> length l = d -> diag (map f l) ** diag (map g l) == diag (map h l).
  Proof.
    intros F G H E Hl. rewrite diag_mul. intros i j Hi Hj. unfold diag. rewrite !nth_map0 by assumption. rewrite E; [reflexivity|]. apply nth_In. lia.
  Qed.
  Lemma fidelity_le1 rho sigma : density d rho -> density d sigma -> (0 <= fidelity_row eigvalsh eigh d rho sigma <= 1)%R.
  Proof.
    intros (Pr & Tr) (Ps & Ts). destruct (root_ex rho Pr) as (R0 & PR & ER). destruct (root_ex sigma Ps) as (T & PT & ET).
    assert (P1 : psd d (R0 ** (sigma ** R0))) by (apply psd_sandwich; [exact Ps|apply PR]). destruct (proj2 Ok _ (proj1 P1)) as (V & D).
    rewrite (fidelity_eig rho sigma R0 _ V PR ER Ps D). set (l := eigvalsh d (R0 ** (sigma ** R0))) in *.
    assert (Hl : length l = d) by apply D. pose proof (eig_pos d _ _ V D P1) as Lp. pose proof (nth_in_pos d l Hl Lp) as Lin. pose proof D as (_ & (V1 & V2) & _).
    assert (HR : madj R0 == R0) by apply PR. assert (HT : madj T == T) by apply PT.
    split. { unfold rsum. clear. induction l as [|x l IH]; cbn [map fold_right]; [lra|]. pose proof (sqrt_pos x). lra. }
    set (X := T ** R0). assert (XX : madj X ** X == R0 ** (sigma ** R0)). { unfold X. rewrite madj_mul, HR, HT, <- ET, !mmul_assoc. reflexivity. }
    assert (XV : madj V ** (madj X ** (X ** V)) == diag l). { rewrite <- (eig_of d _ _ V D). rewrite <- XX. rewrite !mmul_assoc. reflexivity. }
    set (si := diag (map (fun x => inv_or_0 (sqrt x)) l)). set (W := X ** (V ** si)).
    assert (si_adj : madj si == si) by apply diag_adj.
    assert (f0 : inv_or_0 (sqrt 0) = 0%R) by (rewrite sqrt_0; apply inv0).
    set (P := diag (map (fun x => if Req_EM_T x 0 then 0%R else 1%R) l)).
    assert (z0 : (if Req_EM_T 0 0 then 0%R else 1%R) = 0%R) by (destruct (Req_EM_T 0 0); [reflexivity|congruence]).
    assert (key : forall x, In x l -> (inv_or_0 (sqrt x) * x = sqrt x)%R).
    { intros x I. unfold inv_or_0. destruct (Req_EM_T (sqrt x) 0) as [Z|Z]; [lra|]. rewrite <- (sqrt_sqrt x (Lin x I)) at 2. field. exact Z. }
    assert (key2 : forall x, In x l -> (sqrt x * inv_or_0 (sqrt x) = if Req_EM_T x 0 then 0 else 1)%R).
    { intros x I. unfold inv_or_0. destruct (Req_EM_T (sqrt x) 0) as [Z|Z]; destruct (Req_EM_T x 0) as [Y|Y]; [lra| | |field; exact Z].
      - exfalso. apply Y. apply sqrt_eq_0; [apply Lin, I|exact Z].
      - exfalso. apply Z. rewrite Y. apply sqrt_0. }
    assert (silam : si ** diag l == diag (roots l)).
    { pose proof (diag_map_mul (fun x => inv_or_0 (sqrt x)) (fun x => x) sqrt l f0 eq_refl sqrt_0 key Hl) as K. rewrite map_id in K. exact K. }
    assert (WXV : madj W ** (X ** V) == diag (roots l)).
    { unfold W. rewrite !madj_mul, si_adj, !mmul_assoc, XV. exact silam. }
    assert (WW : madj W ** W == P).
    { transitivity (madj W ** (X ** V) ** si); [unfold W at 2; rewrite !mmul_assoc; reflexivity|]. rewrite WXV. apply (diag_map_mul sqrt (fun x => inv_or_0 (sqrt x)) _ l sqrt_0 f0 z0 key2 Hl). }
    assert (siP : si ** P == si).
    { apply (diag_map_mul (fun x => inv_or_0 (sqrt x)) (fun x => if Req_EM_T x 0 then 0%R else 1%R) _ l f0 z0 f0); [|exact Hl]. intros x I. destruct (Req_EM_T x 0) as [->|_]; [rewrite f0; ring|ring]. }
    assert (WP : W ** P == W) by (unfold W; rewrite !mmul_assoc, siP; reflexivity).
    set (Q := W ** madj W). assert (QQ : Q ** Q == Q). { unfold Q. transitivity (W ** (madj W ** W) ** madj W); [rewrite !mmul_assoc; reflexivity|]. rewrite WW, WP. reflexivity. }
    assert (QA : madj Q == Q) by (unfold Q; rewrite madj_mul, madj_adj; reflexivity).
    (* tr sigma Q <= tr sigma *)
    assert (B1 : (fst (trace d (sigma ** Q)) <= 1)%R).
    { set (K := msub mid Q). assert (KA : madj K == K) by (unfold K; rewrite madj_sub, mid_adj, QA; reflexivity).
      assert (KK : K ** K == K). { unfold K. rewrite !msub_l, !msub_r, !mid_l, !mid_r, QQ. intros i j _ _. unfold msub. ring. }
      pose proof (trace_psd_pos d _ (psd_conj d sigma K Ps)) as G. rewrite trace_comm, mmul_assoc, KA, KK in G. unfold K in G. rewrite msub_r, mid_r, trace_sub, Ts in G.
      destruct (trace d (sigma ** Q)) as [x y]. cbn in G |- *. lra. }
    set (A := T ** W). set (B := R0 ** V).
    assert (TA : trace d (madj A ** A) = trace d (sigma ** Q)). { unfold A, Q. rewrite madj_mul, HT. rewrite mmul_assoc. rewrite trace_comm. rewrite !mmul_assoc. rewrite <- (mmul_assoc d T T), ET, trace_comm, !mmul_assoc. rewrite trace_comm, !mmul_assoc. rewrite trace_comm, !mmul_assoc. reflexivity. }
    assert (TB : trace d (madj B ** B) = 1). { unfold B. rewrite madj_mul, HR, mmul_assoc, <- (mmul_assoc d R0 R0), ER. rewrite trace_comm, mmul_assoc, V2, mid_r. exact Tr. }
    assert (TAB : trace d (madj A ** B) = RtoC (rsum (map sqrt l))).
    { assert (E : madj A ** B == diag (roots l)). { rewrite <- WXV. unfold A, B, X. rewrite madj_mul, HT, !mmul_assoc. reflexivity. }
      rewrite E. apply trace_diag. unfold roots. rewrite map_length. exact Hl. }
    assert (TBA : trace d (madj B ** A) = RtoC (rsum (map sqrt l))).
    { transitivity (Cconj (trace d (madj A ** B))); [rewrite <- trace_adj; apply trace_proper; rewrite madj_mul, madj_adj; reflexivity|]. rewrite TAB. apply Cconj_RtoC. }
    pose proof (trace_sq_pos d (msub A B)) as G. rewrite madj_sub, msub_l, !msub_r, !trace_sub, TA, TB, TAB, TBA in G.
    destruct (trace d (sigma ** Q)) as [x y]. cbn in G, B1. lra.
  Qed.
End Fid.

Lemma fidelity_batch eigvalsh eigh d rho : forall sigma,
  ((length sigma < length rho)%nat -> fidelity eigvalsh eigh d rho sigma = None) /\
  ((length rho <= length sigma)%nat -> fidelity eigvalsh eigh d rho sigma = Some (map (fun p => fidelity_row eigvalsh eigh d (fst p) (snd p)) (combine rho sigma))).
Proof.
  induction rho as [|r rho IH]; intros sigma; [split; [cbn; lia|reflexivity]|]. destruct sigma as [|s sigma]; [split; [reflexivity|cbn; lia]|].
  destruct (IH sigma) as (A & B). cbn [length fidelity combine map fst snd]. split; intros H; [rewrite A by lia|rewrite B by lia]; reflexivity.
Qed.
Lemma nth_error_combine {A B} (l : list A) : forall (m : list B) i a b, nth_error l i = Some a -> nth_error m i = Some b -> nth_error (combine l m) i = Some (a, b).
Proof.
  induction l as [|x l IH]; intros m i a b H G; [destruct i; discriminate|]. destruct m as [|y m]; [destruct i; discriminate|].
  destruct i as [|i]; cbn in *; [congruence|apply IH; assumption].
Qed.

(** One value for each matrix of the first batch: the trace of the positive square root of R sigma R, R the positive square root of rho. *)
Theorem C72_fidelity : forall d eigvalsh eigh, eigh_ok d eigvalsh eigh -> forall rho sigma, Forall (density d) rho -> Forall (density d) sigma ->
  (length rho <= length sigma)%nat ->
  exists fs, fidelity eigvalsh eigh d rho sigma = Some fs /\ length fs = length rho /\
    forall i r s f, nth_error rho i = Some r -> nth_error sigma i = Some s -> nth_error fs i = Some f ->
      (0 <= f <= 1)%R /\
      forall R0 S0, psd d R0 -> meq d (mmul d R0 R0) r -> psd d S0 -> meq d (mmul d S0 S0) (mmul d R0 (mmul d s R0)) -> RtoC f = trace d S0.
Proof.
  intros d eigvalsh eigh Ok rho sigma Hr Hs L. eexists. split; [apply (fidelity_batch eigvalsh eigh d rho sigma), L|]. split; [rewrite map_length, combine_length; lia|].
  intros i r s f Ir Is If. rewrite (map_nth_error _ _ _ (nth_error_combine _ _ _ _ _ Ir Is)) in If. cbn [fst snd] in If. injection If as <-.
  rewrite Forall_forall in Hr, Hs. specialize (Hr r (nth_error_In _ _ Ir)). specialize (Hs s (nth_error_In _ _ Is)).
  split; [apply (fidelity_le1 d eigvalsh eigh Ok); assumption|]. intros R0 S0 P E P2 E2. apply (fidelity_trace d eigvalsh eigh Ok r s R0 S0 P E (proj1 Hs) P2 E2).
Qed.
(** Such roots exist, and are unique. *)
Theorem C72_fidelity_roots : forall d eigvalsh eigh, eigh_ok d eigvalsh eigh -> forall A, psd d A ->
  exists R0, psd d R0 /\ meq d (mmul d R0 R0) A /\ forall R1, psd d R1 -> meq d (mmul d R1 R1) A -> meq d R1 R0.
Proof.
  intros d eigvalsh eigh Ok A P. destruct (root_ex d eigvalsh eigh Ok A P) as (R0 & P0 & E0). exists R0. split; [exact P0|]. split; [exact E0|]. intros R1 P1 E1.
  rewrite <- (sqrt_rho_root d eigvalsh eigh Ok A R0 P0 E0). symmetry. apply (sqrt_rho_root d eigvalsh eigh Ok A R1 P1 E1).
Qed.
Theorem C72_fidelity_short_batch : forall d eigvalsh eigh rho sigma, (length sigma < length rho)%nat -> fidelity eigvalsh eigh d rho sigma = None.
Proof. intros. apply fidelity_batch. assumption. Qed.
Theorem C72_fidelity_symmetric : forall d eigvalsh eigh, eigh_ok d eigvalsh eigh -> forall rho sigma, Forall (density d) rho -> Forall (density d) sigma ->
  length rho = length sigma -> fidelity eigvalsh eigh d rho sigma = fidelity eigvalsh eigh d sigma rho.
Proof.
  intros d eigvalsh eigh Ok rho. induction rho as [|r rho IH]; intros [|s sigma] Hr Hs L; try discriminate; [reflexivity|]. inversion Hr; subst. inversion Hs; subst. cbn [fidelity].
  rewrite (fidelity_sym d eigvalsh eigh Ok r s), IH; [reflexivity|assumption|assumption|cbn in L; lia|apply H1|apply H3].
Qed.
Theorem C72_fidelity_self : forall d eigvalsh eigh, eigh_ok d eigvalsh eigh -> forall rho, Forall (density d) rho ->
  fidelity eigvalsh eigh d rho rho = Some (repeat 1%R (length rho)).
Proof.
  intros d eigvalsh eigh Ok rho H. induction H as [|r rho Hr _ IH]; [reflexivity|]. cbn [fidelity length repeat]. rewrite IH. cbn [option_map]. do 2 f_equal. apply RtoC_inj.
  destruct (root_ex d eigvalsh eigh Ok r (proj1 Hr)) as (R0 & P & E). rewrite (fidelity_trace d eigvalsh eigh Ok r r R0 r P E (proj1 Hr) (proj1 Hr)); [apply Hr|].
  rewrite <- E. rewrite !mmul_assoc. reflexivity.
Qed.
(** Against a pure state a the fidelity is the square root of <a|sigma|a>; between two pure states it is |<a|b>| (not squared). *)
Theorem C72_fidelity_pure : forall d eigvalsh eigh, eigh_ok d eigvalsh eigh -> forall a, vdot d a a = 1 ->
  (forall sigma, density d sigma -> fidelity eigvalsh eigh d [pure a] [sigma] = Some [sqrt (fst (qform d sigma a))]) /\
  (forall b, vdot d b b = 1 -> fidelity eigvalsh eigh d [pure a] [pure b] = Some [Cmod (vdot d a b)]).
Proof.
  intros d eigvalsh eigh Ok a Ha.
  assert (M : forall sigma, density d sigma -> fidelity eigvalsh eigh d [pure a] [sigma] = Some [sqrt (fst (qform d sigma a))]).
  { intros sigma (Ps & _). cbn [fidelity option_map]. do 2 f_equal. apply RtoC_inj. set (q := fst (qform d sigma a)). assert (Q0 : (0 <= q)%R) by apply Ps.
    assert (Q : qform d sigma a = RtoC q).
    { assert (E : Cconj (qform d sigma a) = qform d sigma a).
      { unfold qform. rewrite <- vdot_conj. rewrite vdot_adj. apply vdot_ext; [|reflexivity]. intros i Hi. apply mv_ext; [symmetry; apply Ps|exact Hi|reflexivity]. }
      unfold q. destruct (qform d sigma a) as [x y]. unfold Cconj in E. cbn in E |- *. injection E as E. assert (y = 0%R) by lra. subst. reflexivity. }
    rewrite (fidelity_trace d eigvalsh eigh Ok (pure a) sigma (pure a) (mscale (RtoC (sqrt q)) (pure a)) (psd_pure d a)).
    - unfold trace, mscale. rewrite csum_scal. fold (trace d (pure a)). rewrite trace_pure, Ha. ring.
    - unfold pure. rewrite outer_mul2, Ha, mscale_1. reflexivity.
    - exact Ps.
    - apply psd_scale; [apply sqrt_pos|apply psd_pure].
    - unfold pure at 3 4. rewrite outer_mul. fold (qform d sigma a). rewrite Q. fold (pure a).
      transitivity (mscale (RtoC (sqrt q) * RtoC (sqrt q)) (mmul d (pure a) (pure a))).
      + intros i j _ _. unfold mmul, mscale. rewrite <- csum_scal. apply csum_ext. intros k _. ring.
      + unfold pure at 1 2. rewrite outer_mul2, Ha, mscale_1. rewrite <- RtoC_mult, sqrt_sqrt by exact Q0. reflexivity. }
  split; [exact M|]. intros b Hb. rewrite M by (apply pure_density, Hb). do 2 f_equal. rewrite qform_pure. cbn [fst RtoC]. rewrite sqrt_pow2 by apply Cmod_ge_0.
  rewrite (vdot_conj d a b). unfold Cmod, Cconj. cbn [fst snd]. f_equal. ring.
Qed.

(** ** Change of basis *)
Definition rotate (d : nat) (V A : mat) : mat := mmul d V (mmul d A (madj V)).
Lemma rotate_psd d V A : psd d A -> psd d (rotate d V A).
Proof. apply psd_unitary. Qed.
Lemma rotate_mul d V A B : unitary d V -> meq d (mmul d (rotate d V A) (rotate d V B)) (rotate d V (mmul d A B)).
Proof.
  intros (V1 & _). unfold rotate. transitivity (mmul d V (mmul d (mmul d A (mmul d (madj V) V)) (mmul d B (madj V)))); [rewrite !mmul_assoc; reflexivity|]. rewrite V1, mid_r, !mmul_assoc. reflexivity.
Qed.
Lemma rotate_density d V A : unitary d V -> density d A -> density d (rotate d V A).
Proof. intros U (P & T). split; [apply rotate_psd, P|]. unfold rotate. rewrite trace_conj by exact U. exact T. Qed.
#[local] Instance rotate_proper d V : Proper (meq d ==> meq d) (rotate d V).
Proof. intros A B H. unfold rotate. rewrite H. reflexivity. Qed.
Lemma rotate_trace_pow d V A n : unitary d V -> trace d (mpow d (rotate d V A) n) = trace d (mpow d A n).
Proof.
  intros U. assert (E : meq d (mpow d (rotate d V A) n) (rotate d V (mpow d A n))).
  { induction n as [|n IH]; cbn [mpow]; [unfold rotate; rewrite mid_l; symmetry; apply U|]. rewrite (mmul_proper d _ _ (reflexivity _) _ _ IH). apply rotate_mul, U. }
  rewrite (trace_proper d _ _ E). unfold rotate. apply trace_conj, U.
Qed.
Theorem C72_basis_change : forall d eigvalsh eigh, eigh_ok d eigvalsh eigh -> forall V, unitary d V -> forall rho sigma, Forall (density d) rho -> Forall (density d) sigma ->
  (forall order, purity eigvalsh d (map (rotate d V) rho) order = purity eigvalsh d rho order) /\
  (forall eps, von_neumann_entropy eigvalsh d (map (rotate d V) rho) eps = von_neumann_entropy eigvalsh d rho eps) /\
  fidelity eigvalsh eigh d (map (rotate d V) rho) (map (rotate d V) sigma) = fidelity eigvalsh eigh d rho sigma.
Proof.
  intros d eigvalsh eigh Ok V U rho sigma Hr Hs. split; [|split].
  - intros order. unfold purity. rewrite map_map. apply map_ext_in. intros r I. rewrite Forall_forall in Hr. specialize (Hr r I).
    destruct (proj2 Ok r (proj1 (proj1 Hr))) as (W & D). destruct (proj2 Ok (rotate d V r) (proj1 (rotate_psd d V r (proj1 Hr)))) as (W' & D').
    apply (spectral_sum d _ _ _ _ W' W _ D' D). intros n. apply rotate_trace_pow, U.
  - intros eps. unfold von_neumann_entropy. rewrite map_map. apply map_ext_in. intros r I. rewrite Forall_forall in Hr. specialize (Hr r I).
    destruct (proj2 Ok r (proj1 (proj1 Hr))) as (W & D). destruct (proj2 Ok (rotate d V r) (proj1 (rotate_psd d V r (proj1 Hr)))) as (W' & D').
    rewrite (entropy_row_eq eigvalsh d eps r _ W (ex_intro _ W D) Hr D), (entropy_row_eq eigvalsh d eps (rotate d V r) _ W' (ex_intro _ W' D') (rotate_density d V r U Hr) D').
    apply (spectral_sum d _ _ _ _ W' W _ D' D). intros n. apply rotate_trace_pow, U.
  - revert sigma Hs. induction Hr as [|r rho Hr _ IH]; intros sigma Hs; [reflexivity|]. destruct Hs as [|s sigma Hs Hs']; [reflexivity|]. cbn [map fidelity]. rewrite IH by exact Hs'. do 2 f_equal. apply RtoC_inj.
    destruct (root_ex d eigvalsh eigh Ok r (proj1 Hr)) as (R0 & P & E). destruct (root_ex d eigvalsh eigh Ok _ (psd_sandwich d s R0 (proj1 Hs) (proj1 P))) as (S0 & P2 & E2).
    rewrite (fidelity_trace d eigvalsh eigh Ok r s R0 S0 P E (proj1 Hs) P2 E2).
    rewrite (fidelity_trace d eigvalsh eigh Ok (rotate d V r) (rotate d V s) (rotate d V R0) (rotate d V S0)); [unfold rotate; apply trace_conj, U|apply rotate_psd, P|rewrite rotate_mul, E by exact U; reflexivity|apply rotate_psd, Hs|apply rotate_psd, P2|].
    rewrite !rotate_mul, E2 by exact U. reflexivity.
Qed.

(** ** equivalent_state *)
Definition entry (v : list C) (i : nat) : C := nth i v 0.
Lemma overlap_vdot a b : length a = length b -> overlap_exact a b = (Cmod (vdot (length a) (entry a) (entry b)) ^ 2)%R.
Proof.
  intros L. unfold overlap_exact. f_equal. f_equal. unfold vdot, entry. revert b L. induction a as [|x a IH]; intros [|y b] L; try discriminate; [reflexivity|].
  cbn [combine length seq csum fst snd nth]. rewrite IH by (cbn in L; lia). rewrite <- seq_shift, csum_map. reflexivity.
Qed.
(** |b - <a|b> a|^2 = 1 - |<a|b>|^2 *)
Lemma residual d a b : vdot d a a = 1 -> vdot d b b = 1 -> vdot d (fun i => b i - vdot d a b * a i) (fun i => b i - vdot d a b * a i) = RtoC (1 - Cmod (vdot d a b) ^ 2).
Proof.
  intros Ha Hb. set (z := vdot d a b).
  transitivity (vdot d b b - z * vdot d b a - Cconj z * vdot d a b + Cconj z * z * vdot d a a).
  - unfold vdot. rewrite <- !csum_scal, <- !csum_minus, <- csum_plus. apply csum_ext. intros i _. rewrite Cconj_minus, Cconj_mult. ring.
  - rewrite (vdot_conj d a b), Ha, Hb. fold z. replace (1 - z * Cconj z - Cconj z * z + Cconj z * z * 1) with (1 - Cconj z * z) by ring. rewrite conj_mul_real. unfold Cmod. rewrite pow2_sqrt by nra.
    rewrite RtoC_minus. reflexivity.
Qed.
Definition normalised (d : nat) (v : list C) : Prop := length v = d /\ vdot d (entry v) (entry v) = 1.
(** On normalised states it accepts exactly when every pair has 1 - |<a|b>|^2 within the tolerance. *)
Theorem C72_equivalent_state : forall d s0 s1 rtol atol, Forall (normalised d) s0 -> Forall (normalised d) s1 -> length s0 = length s1 ->
  (equivalent_state s0 s1 rtol atol = true <-> Forall2 (fun a b => 1 - Cmod (vdot d (entry a) (entry b)) ^ 2 <= atol + rtol)%R s0 s1).
Proof.
  intros d s0 s1 rtol atol H0 H1 L. revert s1 H1 L. induction H0 as [|a s0 (La & Ha) _ IH]; intros [|b s1] H1 L; try discriminate; [split; [constructor|reflexivity]|].
  inversion H1 as [|? ? (Lb & Hb) H1' E1]; subst. cbn [length] in L. specialize (IH s1 H1' ltac:(lia)). unfold equivalent_state in *. cbn [combine forallb fst snd].
  rewrite overlap_vdot by lia. set (f := (Cmod (vdot (length a) (entry a) (entry b)) ^ 2)%R).
  assert (F : (f <= 1)%R). { pose proof (vdot_pos (length a) (fun i => entry b i - vdot (length a) (entry a) (entry b) * entry a i)) as G. unfold nrm in G. rewrite residual in G by assumption. cbn in G. unfold f. cbn. lra. }
  rewrite Rabs_R1, Rmult_1_r in *. replace (Rabs (f - 1)) with (1 - f)%R by (rewrite Rabs_left1; lra).
  destruct (Rle_dec (1 - f) (atol + rtol)) as [G|G]; cbn [andb].
  - rewrite IH. split; intros Q; [constructor; [exact G|exact Q]|inversion Q; assumption].
  - split; [discriminate|]. intros Q. inversion Q; subst. contradiction.
Qed.
(** With tolerances zero: exactly when the states are equal up to a phase, pair by pair.  States equal up to a phase are accepted at every tolerance. *)
Theorem C72_equivalent_phase : forall d s0 s1, Forall (normalised d) s0 -> Forall (normalised d) s1 -> length s0 = length s1 ->
  let same a b := exists z, Cmod z = 1%R /\ forall i, (i < d)%nat -> entry b i = z * entry a i in
  (equivalent_state s0 s1 0 0 = true <-> Forall2 same s0 s1) /\
  (forall rtol atol, (0 <= rtol)%R -> (0 <= atol)%R -> Forall2 same s0 s1 -> equivalent_state s0 s1 rtol atol = true).
Proof.
  intros d s0 s1 H0 H1 L same.
  assert (P : forall a b, normalised d a -> normalised d b -> same a b -> Cmod (vdot d (entry a) (entry b)) = 1%R).
  { intros a b (_ & Ha) _ (z & Hz & E). transitivity (Cmod (z * vdot d (entry a) (entry a))).
    - f_equal. unfold vdot. rewrite <- csum_scal. apply csum_ext. intros i Hi. apply in_idx in Hi. rewrite E by exact Hi. ring.
    - rewrite Ha, Cmod_mult, Hz, Cmod_1. ring. }
  assert (A : forall rtol atol, (0 <= rtol)%R -> (0 <= atol)%R -> Forall2 same s0 s1 -> equivalent_state s0 s1 rtol atol = true).
  { intros rtol atol Hr Hat F. apply (C72_equivalent_state d); [assumption..|]. clear L. induction F as [|a b s0 s1 S _ IH]; constructor; inversion H0; subst; inversion H1; subst.
    - rewrite (P a b) by assumption. lra.
    - apply IH; assumption. }
  split; [|exact A]. split; [|apply A; lra]. intros E. apply (C72_equivalent_state d) in E; [|assumption..]. clear A L. induction E as [|a b s0 s1 G _ IH]; constructor; inversion H0; subst; inversion H1; subst.
  - clear IH. destruct H3 as (La & Ha). destruct H5 as (Lb & Hb). set (z := vdot d (entry a) (entry b)) in *. pose proof (residual d (entry a) (entry b) Ha Hb) as R0. fold z in R0.
    pose proof (vdot_pos d (fun i => entry b i - z * entry a i)) as V. unfold nrm in V. rewrite R0 in V. cbn [fst RtoC] in V. pose proof (Cmod_ge_0 z). exists z. split; [nra|]. intros i Hi.
    assert (Z : entry b i - z * entry a i = 0). { apply (vdot_zero d (fun i => entry b i - z * entry a i)); [|exact Hi]. unfold nrm. rewrite R0. cbn [fst RtoC]. lra. }
    transitivity (entry b i - z * entry a i + z * entry a i); [ring|rewrite Z; ring].
  - apply IH; assumption.
Qed.
