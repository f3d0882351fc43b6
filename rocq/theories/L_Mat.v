(** Algebra of the matrices of S_Mat.v; the positive square root of a matrix is unique. *)
From Coq Require Import Reals List Arith Bool Lia Lra Setoid Morphisms.
From Coquelicot Require Import Coquelicot.
From Coq Require Import List.
From Verif Require Import S_Ops L_Ops S_Mat.
Import ListNotations.
Open Scope R_scope.
Open Scope C_scope.

Section Alg.
  Variable d : nat.
  Notation "A == B" := (meq d A B) (at level 70).
  Notation "A ** B" := (mmul d A B) (at level 40, left associativity).

  #[local] Instance meq_equiv : Equivalence (meq d).
  Proof.
    split; [intros A i j _ _; reflexivity|intros A B H i j Hi Hj; symmetry; apply H; assumption|].
    intros A B C0 H G i j Hi Hj. rewrite H, G by assumption. reflexivity.
  Qed.
  Lemma in_idx k : In k (seq 0 d) -> (k < d)%nat. Proof. intros H. apply in_seq in H. lia. Qed.
  #[local] Instance mmul_proper : Proper (meq d ==> meq d ==> meq d) (mmul d).
  Proof.
    intros A A' HA B B' HB i j Hi Hj. unfold mmul. apply csum_ext. intros k Hk. apply in_idx in Hk. rewrite HA, HB by assumption. reflexivity.
  Qed.
  #[local] Instance madj_proper : Proper (meq d ==> meq d) madj.
  Proof. intros A A' HA i j Hi Hj. unfold madj. rewrite HA by assumption. reflexivity. Qed.
  #[local] Instance mscale_proper c : Proper (meq d ==> meq d) (mscale c).
  Proof. intros A A' HA i j Hi Hj. unfold mscale. rewrite HA by assumption. reflexivity. Qed.
  #[local] Instance trace_proper : Proper (meq d ==> eq) (trace d).
  Proof. intros A A' HA. unfold trace. apply csum_ext. intros k Hk. apply in_idx in Hk. apply HA; assumption. Qed.

  Lemma mmul_assoc A B C0 : A ** B ** C0 == A ** (B ** C0).
  Proof.
    intros i j _ _. unfold mmul. transitivity (csum (fun k => csum (fun m => A i m * B m k * C0 k j) (seq 0 d)) (seq 0 d)).
    - apply csum_ext. intros k _. rewrite <- csum_scal_r. reflexivity.
    - rewrite csum_swap. apply csum_ext. intros m _. rewrite <- csum_scal. apply csum_ext. intros k _. ring.
  Qed.
  Lemma csum_pick (f : nat -> C) i : (i < d)%nat -> csum (fun k => if Nat.eqb i k then f k else 0) (seq 0 d) = f i.
  Proof.
    intros Hi. rewrite (csum_single _ (seq 0 d) i).
    - rewrite Nat.eqb_refl. reflexivity.
    - apply seq_NoDup.
    - apply in_seq. lia.
    - intros k _ Hk. destruct (Nat.eqb_spec i k); [congruence|reflexivity].
  Qed.
  Lemma mid_l A : mid ** A == A.
  Proof.
    intros i j Hi Hj. unfold mmul, mid. rewrite <- (csum_pick (fun k => A k j) i Hi). apply csum_ext. intros k _. destruct (Nat.eqb i k); ring.
  Qed.
  Lemma mid_r A : A ** mid == A.
  Proof.
    intros i j Hi Hj. unfold mmul, mid. rewrite <- (csum_pick (fun k => A i k) j Hj). apply csum_ext. intros k _. rewrite (Nat.eqb_sym k j). destruct (Nat.eqb j k); ring.
  Qed.
  Lemma madj_mul A B : madj (A ** B) == madj B ** madj A.
  Proof.
    intros i j _ _. unfold madj, mmul. rewrite csum_conj. apply csum_ext. intros k _. rewrite Cconj_mult. ring.
  Qed.
  Lemma madj_adj A : madj (madj A) == A.
  Proof. intros i j _ _. unfold madj. apply Cconj_conj. Qed.
  Lemma trace_comm A B : trace d (A ** B) = trace d (B ** A).
  Proof. unfold trace, mmul. rewrite csum_swap. apply csum_ext. intros k _. apply csum_ext. intros m _. ring. Qed.
  Lemma diag_adj l : madj (diag l) == diag l.
  Proof.
    intros i j _ _. unfold madj, diag. rewrite Nat.eqb_sym. destruct (Nat.eqb_spec i j) as [->|_]; apply Cconj_RtoC.
  Qed.
  Lemma diag_mul l m : diag l ** diag m == fun i j => if Nat.eqb i j then RtoC (nth i l 0%R * nth i m 0%R) else 0.
  Proof.
    intros i j Hi Hj. unfold mmul, diag.
    transitivity (csum (fun k => if Nat.eqb i k then RtoC (nth i l 0%R) * (if Nat.eqb k j then RtoC (nth k m 0%R) else 0) else 0) (seq 0 d)).
    - apply csum_ext. intros k _. destruct (Nat.eqb i k); ring.
    - rewrite (csum_pick (fun k => RtoC (nth i l 0%R) * (if Nat.eqb k j then RtoC (nth k m 0%R) else 0)) i Hi). destruct (Nat.eqb i j); [rewrite RtoC_mult; reflexivity|ring].
  Qed.
  Lemma trace_conj A U : unitary d U -> trace d (U ** (A ** madj U)) = trace d A.
  Proof. intros (U1 & _). rewrite trace_comm, mmul_assoc, U1, mid_r. reflexivity. Qed.

  (** ** Vectors *)
  Definition nrm (v : nat -> C) : R := fst (vdot d v v).
  Lemma sum_fst {A} (f : A -> C) l : fst (csum f l) = fold_right (fun x a => (fst (f x) + a)%R) 0%R l.
  Proof. induction l as [|x l IH]; [reflexivity|]. cbn [csum fold_right]. rewrite <- IH. reflexivity. Qed.
  Lemma sum_pos {A} (f : A -> C) l : (forall x, In x l -> (0 <= fst (f x))%R) -> (0 <= fst (csum f l))%R.
  Proof.
    intros H. induction l as [|x l IH]; [cbn; lra|]. cbn [csum]. assert (0 <= fst (f x))%R by (apply H; left; reflexivity).
    assert (0 <= fst (csum f l))%R by (apply IH; intros y Hy; apply H; right; exact Hy). change (fst (f x + csum f l)) with (fst (f x) + fst (csum f l))%R. lra.
  Qed.
  Lemma sum_pos_zero {A} (f : A -> C) l : (forall x, In x l -> (0 <= fst (f x))%R) -> (fst (csum f l) <= 0)%R -> forall x, In x l -> fst (f x) = 0%R.
  Proof.
    induction l as [|y l IH]; intros H Hz x Hx; [destruct Hx|]. cbn [csum] in Hz. change (fst (f y + csum f l)) with (fst (f y) + fst (csum f l))%R in Hz.
    assert (0 <= fst (f y))%R by (apply H; left; reflexivity).
    assert (0 <= fst (csum f l))%R by (apply sum_pos; intros z Hz'; apply H; right; exact Hz').
    destruct Hx as [<-|Hx]; [lra|]. apply IH; [intros z Hz'; apply H; right; exact Hz'|lra|exact Hx].
  Qed.
  Lemma conj_mul_fst z : fst (Cconj z * z) = (fst z ^ 2 + snd z ^ 2)%R.
  Proof. unfold Cconj, Cmult. cbn. ring. Qed.
  Lemma conj_mul_real z : Cconj z * z = RtoC (fst z ^ 2 + snd z ^ 2).
  Proof. unfold Cconj, Cmult, RtoC. cbn. f_equal; ring. Qed.
  Lemma vdot_pos v : (0 <= nrm v)%R.
  Proof. apply sum_pos. intros i _. rewrite conj_mul_fst. nra. Qed.
  Lemma vdot_zero v : (nrm v <= 0)%R -> forall i, (i < d)%nat -> v i = 0.
  Proof.
    intros H i Hi. assert (Z : fst (Cconj (v i) * v i) = 0%R).
    { apply (sum_pos_zero (fun i => Cconj (v i) * v i) (seq 0 d)); [intros k _; rewrite conj_mul_fst; nra|exact H|apply in_seq; lia]. }
    rewrite conj_mul_fst in Z. destruct (v i) as [a b]. cbn in Z. assert (a = 0%R) by nra. assert (b = 0%R) by nra. subst. reflexivity.
  Qed.
  Lemma vdot_ext u v u' v' : (forall i, (i < d)%nat -> u i = u' i) -> (forall i, (i < d)%nat -> v i = v' i) -> vdot d u v = vdot d u' v'.
  Proof. intros H G. apply csum_ext. intros i Hi. apply in_idx in Hi. rewrite H, G by exact Hi. reflexivity. Qed.
  Lemma mv_mul A B v i : mv d (A ** B) v i = mv d A (mv d B v) i.
  Proof.
    unfold mv, mmul. transitivity (csum (fun j => csum (fun k => A i k * B k j * v j) (seq 0 d)) (seq 0 d)).
    - apply csum_ext. intros j _. rewrite <- csum_scal_r. reflexivity.
    - rewrite csum_swap. apply csum_ext. intros k _. rewrite <- csum_scal. apply csum_ext. intros j _. ring.
  Qed.
  Lemma mv_ext A B v v' i : A == B -> (i < d)%nat -> (forall j, (j < d)%nat -> v j = v' j) -> mv d A v i = mv d B v' i.
  Proof. intros H Hi Hv. apply csum_ext. intros j Hj. apply in_idx in Hj. rewrite H, Hv by assumption. reflexivity. Qed.
  Lemma vdot_adj A u v : vdot d u (mv d A v) = vdot d (mv d (madj A) u) v.
  Proof.
    unfold vdot, mv, madj. transitivity (csum (fun i => csum (fun j => Cconj (u i) * A i j * v j) (seq 0 d)) (seq 0 d)).
    - apply csum_ext. intros i _. rewrite <- csum_scal. apply csum_ext. intros j _. ring.
    - rewrite csum_swap. apply csum_ext. intros j _. rewrite csum_conj, <- csum_scal_r. apply csum_ext. intros i _. rewrite Cconj_mult, Cconj_conj. ring.
  Qed.
  Lemma qform_ext A B v : A == B -> qform d A v = qform d B v.
  Proof. intros H. unfold qform. apply vdot_ext; [reflexivity|]. intros i Hi. apply mv_ext; auto. Qed.
  (** <v|X' A X|v> = <Xv|A|Xv> *)
  Lemma qform_conj A X v : qform d (madj X ** (A ** X)) v = qform d A (mv d X v).
  Proof.
    unfold qform. transitivity (vdot d v (mv d (madj X) (mv d A (mv d X v)))).
    - apply vdot_ext; [reflexivity|]. intros i Hi. rewrite mv_mul. apply mv_ext; [reflexivity|exact Hi|]. intros j _. apply mv_mul.
    - rewrite vdot_adj. apply vdot_ext; [|reflexivity]. intros i Hi. apply mv_ext; [apply madj_adj|exact Hi|reflexivity].
  Qed.
  Lemma psd_ext A B : A == B -> psd d A -> psd d B.
  Proof.
    intros H (HA & P). split; [unfold hermitian in *; rewrite <- H; exact HA|]. intros v. rewrite <- (qform_ext A B v H). apply P.
  Qed.
  Lemma psd_conj A X : psd d A -> psd d (madj X ** (A ** X)).
  Proof.
    intros (HA & P). split; [|intros v; rewrite qform_conj; apply P].
    unfold hermitian in *. rewrite !madj_mul, madj_adj, HA, mmul_assoc. reflexivity.
  Qed.
  Lemma psd_sandwich A R0 : psd d A -> hermitian d R0 -> psd d (R0 ** (A ** R0)).
  Proof. intros P H. unfold hermitian in H. apply (psd_ext (madj R0 ** (A ** R0))); [rewrite H; reflexivity|apply psd_conj, P]. Qed.
  Lemma psd_diag l : (forall i, (i < d)%nat -> (0 <= nth i l 0)%R) -> psd d (diag l).
  Proof.
    intros H. split; [apply diag_adj|]. intros v. unfold qform, vdot. apply sum_pos. intros i Hi. apply in_idx in Hi.
    assert (E : mv d (diag l) v i = RtoC (nth i l 0%R) * v i).
    { unfold mv, diag. rewrite <- (csum_pick (fun k => RtoC (nth i l 0%R) * v k) i Hi). apply csum_ext. intros k _. destruct (Nat.eqb i k); ring. }
    rewrite E. replace (Cconj (v i) * (RtoC (nth i l 0%R) * v i)) with (RtoC (nth i l 0%R) * (Cconj (v i) * v i)) by ring.
    rewrite conj_mul_real, <- RtoC_mult. change (fst (RtoC (nth i l 0%R * (fst (v i) ^ 2 + snd (v i) ^ 2)))) with (nth i l 0%R * (fst (v i) ^ 2 + snd (v i) ^ 2))%R.
    specialize (H i Hi). apply Rmult_le_pos; nra.
  Qed.

  (** ** The positive square root *)
  Definition roots (l : list R) : list R := map sqrt l.
  Lemma nth_roots l i : nth i (roots l) 0%R = sqrt (nth i l 0%R).
  Proof. unfold roots. rewrite <- sqrt_0 at 1. apply map_nth. Qed.

  Lemma diag_root B l : psd d B -> B ** B == diag l -> B == diag (roots l) /\ forall i, (i < d)%nat -> (0 <= nth i l 0)%R.
  Proof.
    intros (HB & P) HS.
    assert (Hl : forall i, (i < d)%nat -> RtoC (nth i l 0%R) = csum (fun k => Cconj (B k i) * B k i) (seq 0 d)).
    { intros i Hi. transitivity ((B ** B) i i); [rewrite HS by assumption; unfold diag; rewrite Nat.eqb_refl; reflexivity|].
      unfold mmul. apply csum_ext. intros k Hk. apply in_idx in Hk. rewrite <- (HB i k Hi Hk). reflexivity. }
    assert (Hp : forall i, (i < d)%nat -> (0 <= nth i l 0)%R).
    { intros i Hi. change (nth i l 0%R) with (fst (RtoC (nth i l 0%R))). rewrite (Hl i Hi). apply sum_pos. intros k _. rewrite conj_mul_fst. nra. }
    split; [|exact Hp]. intros i j Hi Hj. set (s := sqrt (nth j l 0%R)).
    assert (Hs : (s * s = nth j l 0)%R) by (apply sqrt_sqrt, Hp, Hj). assert (Hs0 : (0 <= s)%R) by apply sqrt_pos.
    set (w := fun k => B k j - RtoC s * (if Nat.eqb k j then 1 else 0)).
    assert (E : forall k, (k < d)%nat -> mv d B w k = - (RtoC s * w k)).
    { intros k Hk. unfold mv, w.
      transitivity (csum (fun m => B k m * B m j + - RtoC s * (if Nat.eqb j m then B k m else 0)) (seq 0 d)).
      - apply csum_ext. intros m _. rewrite (Nat.eqb_sym m j). destruct (Nat.eqb j m); ring.
      - rewrite csum_plus, csum_scal, (csum_pick (fun m => B k m) j Hj). change (csum (fun m => B k m * B m j) (seq 0 d)) with ((B ** B) k j). rewrite HS by assumption.
        unfold diag. destruct (Nat.eqb_spec k j) as [->|_]; [rewrite <- Hs, RtoC_mult; ring|ring]. }
    assert (Z : (nrm w <= 0)%R).
    { destruct (Rle_lt_or_eq_dec 0 s Hs0) as [Lt|Eq].
      - assert (Q : qform d B w = - RtoC s * vdot d w w).
        { unfold qform. transitivity (vdot d w (fun k => - RtoC s * w k)); [apply vdot_ext; [reflexivity|]; intros k Hk; rewrite E by exact Hk; ring|].
          unfold vdot. rewrite <- csum_scal. apply csum_ext. intros k _. ring. }
        specialize (P w). rewrite Q in P. unfold nrm. destruct (vdot d w w) as [a b]. cbn in P |- *.  nra.
      - assert (Q : nrm w = nth j l 0%R); [|rewrite Q, <- Hs, <- Eq; lra].
        unfold nrm. change (nth j l 0%R) with (fst (RtoC (nth j l 0%R))). rewrite (Hl j Hj). f_equal. unfold vdot. apply csum_ext. intros k _.
        assert (W : w k = B k j) by (unfold w; rewrite <- Eq; ring). rewrite W. reflexivity. }
    pose proof (vdot_zero w Z i Hi) as W. unfold w in W. unfold diag. rewrite nth_roots.
    destruct (Nat.eqb_spec i j) as [->|_].
    - fold s. transitivity (B j j - RtoC s * 1 + RtoC s); [ring|rewrite W; ring].
    - transitivity (B i j - RtoC s * 0); [ring|exact W].
  Qed.

  (** If A is positive and A A has the eigenvalues l and eigenvectors U then A has the square roots of l and the same eigenvectors. *)
  Lemma root_unique A M l U : psd d A -> A ** A == M -> decomposes d M l U ->
    A == U ** (diag (roots l) ** madj U) /\ forall i, (i < d)%nat -> (0 <= nth i l 0)%R.
  Proof.
    intros P HS (Hl & (U1 & U2) & HD). set (B := madj U ** (A ** U)).
    assert (HB : psd d B) by (apply psd_conj, P).
    assert (BB : B ** B == diag l).
    { unfold B. transitivity (madj U ** (A ** (U ** madj U) ** A ** U)); [rewrite !mmul_assoc; reflexivity|].
      rewrite U2, mid_r, HS, HD. rewrite !mmul_assoc, U1, mid_r. rewrite <- mmul_assoc, U1, mid_l. reflexivity. }
    destruct (diag_root B l HB BB) as (E & Hp). split; [|exact Hp]. rewrite <- E. unfold B.
    transitivity (U ** madj U ** A ** (U ** madj U)); [rewrite U2, mid_l, mid_r; reflexivity|rewrite !mmul_assoc; reflexivity].
  Qed.
  Lemma roots_sq l : (forall i, (i < d)%nat -> (0 <= nth i l 0)%R) -> diag (roots l) ** diag (roots l) == diag l.
  Proof.
    intros H. rewrite diag_mul. intros i j Hi Hj. unfold diag. rewrite !nth_roots. rewrite sqrt_sqrt by (apply H; exact Hi). reflexivity.
  Qed.
  Lemma psd_unitary A U : psd d A -> psd d (U ** (A ** madj U)).
  Proof. intros P. apply (psd_ext (madj (madj U) ** (A ** madj U))); [rewrite madj_adj; reflexivity|apply psd_conj, P]. Qed.
  Lemma root_exists M l U : decomposes d M l U -> (forall i, (i < d)%nat -> (0 <= nth i l 0)%R) ->
    psd d (U ** (diag (roots l) ** madj U)) /\ U ** (diag (roots l) ** madj U) ** (U ** (diag (roots l) ** madj U)) == M.
  Proof.
    intros (Hl & (U1 & U2) & HD) H. split.
    - apply psd_unitary, psd_diag. intros i Hi. rewrite nth_roots. apply sqrt_pos.
    - transitivity (U ** (diag (roots l) ** (madj U ** U) ** diag (roots l) ** madj U)); [rewrite !mmul_assoc; reflexivity|].
      rewrite U1, mid_r, roots_sq by exact H. symmetry. exact HD.
  Qed.

  (** ** Eigenvalues *)
  Lemma eig_of A l U : decomposes d A l U -> madj U ** (A ** U) == diag l.
  Proof. intros (_ & (U1 & U2) & HD). rewrite HD. rewrite !mmul_assoc, U1, mid_r. rewrite <- mmul_assoc, U1, mid_l. reflexivity. Qed.
  Lemma eig_pos A l U : decomposes d A l U -> psd d A -> forall i, (i < d)%nat -> (0 <= nth i l 0)%R.
  Proof.
    intros D P i Hi. destruct (psd_ext _ _ (eig_of A l U D) (psd_conj A U P)) as (_ & Q). specialize (Q (fun k => if Nat.eqb i k then 1 else 0)).
    unfold qform, vdot in Q.
    assert (E : csum (fun k => Cconj (if Nat.eqb i k then 1 else 0) * mv d (diag l) (fun k => if Nat.eqb i k then 1 else 0) k) (seq 0 d) = RtoC (nth i l 0%R)).
    { transitivity (csum (fun k => if Nat.eqb i k then mv d (diag l) (fun k => if Nat.eqb i k then 1 else 0) k else 0) (seq 0 d)).
      - apply csum_ext. intros k _. destruct (Nat.eqb i k); [rewrite Cconj_RtoC; ring|rewrite Cconj_RtoC; ring].
      - rewrite (csum_pick (fun k => mv d (diag l) (fun k => if Nat.eqb i k then 1 else 0) k) i Hi). unfold mv.
        transitivity (csum (fun k => if Nat.eqb i k then diag l i k else 0) (seq 0 d)).
        + apply csum_ext. intros k _. destruct (Nat.eqb i k); ring.
        + rewrite (csum_pick (fun k => diag l i k) i Hi). unfold diag. rewrite Nat.eqb_refl. reflexivity. }
    rewrite E in Q. exact Q.
  Qed.
  Lemma trace_diag l : length l = d -> trace d (diag l) = RtoC (fold_right Rplus 0%R l).
  Proof.
    intros <-. unfold trace, diag. transitivity (csum (fun i => RtoC (nth i l 0%R)) (seq 0 (length l))).
    - apply csum_ext. intros i _. rewrite Nat.eqb_refl. reflexivity.
    - induction l as [|x l IH]; [reflexivity|]. cbn [length seq csum fold_right nth]. rewrite <- seq_shift, csum_map. cbn [nth]. rewrite IH, RtoC_plus. reflexivity.
  Qed.
  Lemma trace_eig A l U : decomposes d A l U -> trace d A = RtoC (fold_right Rplus 0%R l).
  Proof. intros (Hl & HU & HD). rewrite HD, trace_conj by exact HU. apply trace_diag, Hl. Qed.
  Lemma pow_eig A l U n : decomposes d A l U -> decomposes d (mpow d A n) (map (fun x => x ^ n)%R l) U.
  Proof.
    intros (Hl & (U1 & U2) & HD). split; [rewrite map_length; exact Hl|]. split; [split; assumption|].
    assert (Hn : forall k i, (i < d)%nat -> nth i (map (fun x => x ^ k)%R l) 0%R = (nth i l 0 ^ k)%R).
    { intros k i Hi. rewrite (nth_indep _ 0%R (0 ^ k)%R) by (rewrite map_length; lia). apply (map_nth (fun x => x ^ k)%R). }
    induction n as [|n IH]; cbn [mpow].
    - assert (E : diag (map (fun x => x ^ 0)%R l) == mid) by (intros i j Hi Hj; unfold diag, mid; rewrite Hn by exact Hi; reflexivity).
      rewrite E, mid_l, U2. reflexivity.
    - rewrite IH, HD. transitivity (U ** (diag l ** (madj U ** U) ** diag (map (fun x => x ^ n)%R l) ** madj U)); [rewrite !mmul_assoc; reflexivity|].
      rewrite U1, mid_r. assert (E : diag l ** diag (map (fun x => x ^ n)%R l) == diag (map (fun x => x ^ S n)%R l)); [|rewrite E; reflexivity].
      rewrite diag_mul. intros i j Hi Hj. unfold diag. rewrite !Hn by exact Hi. cbn [pow]. reflexivity.
  Qed.
End Alg.
