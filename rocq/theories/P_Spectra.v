(** C91: the spectra the operations declare. *)
From Coq Require Import String Reals List Arith Bool Lia Lra FunctionalExtensionality.
From Coquelicot Require Import Coquelicot.
From Coq Require Import List.
From Verif Require Import S_Ops M_Block M_BlockOps S_Den L_Ops L_Den L_ExpMul L_ExpOp L_Diag P_States P_Operators P_Qft P_Rydberg P_Stretch M_PSR M_Gradient M_Spectra.
Import ListNotations.
Open Scope R_scope.
Open Scope C_scope.

(** * Specification *)
(** the numbers by which an operator multiplies some state that is not zero *)
Definition eigenvalue (A : Op) (l : C) : Prop := exists psi : St, (exists x, psi x <> 0) /\ forall x, A psi x = l * psi x.
(** the operations with their arguments: different qubits, at least one control *)
Definition operation (b : block) : Prop :=
  match b with
  | BPrim _ _ | BRot _ _ _ | BU _ _ _ _ => True
  | BSwap a c => a <> c
  | BCSwap c a d => c <> a /\ c <> d /\ a <> d
  | BCtrl cs (BPrim _ t) | BPCtrl cs (BRot _ t _) => cs <> [] /\ ~ In t cs
  | _ => False
  end.

(** * Controlled matrices *)
(** the matrix where all controls are 1, a factor elsewhere *)
Definition cmat (k : C) (cs : list nat) (t : nat) (m : bool -> bool -> C) : Op := fun psi x => if forallb x cs then gate1 t m psi x else k * psi x.
Definition Eig (m : bool -> bool -> C) (l : C) : Prop := (m false false - l) * (m true true - l) = m false true * m true false.
Lemma C1_nz : RtoC 1 <> 0. Proof. intros H. injection H. lra. Qed.
Lemma forallb_upd x cs t v : ~ In t cs -> forallb (upd x t v) cs = forallb x cs.
Proof.
  intros H. induction cs as [|c cs IH]; [reflexivity|]. cbn [forallb]. rewrite IH by (intros Q; apply H; right; exact Q). rewrite upd_other; [reflexivity|]. intros ->. apply H. left. reflexivity.
Qed.
Lemma Cmult_zero (a b : C) : a * b = 0 -> a = 0 \/ b = 0.
Proof. intros H. destruct (Ceq_dec a 0) as [->|N]; [left; reflexivity|right]. rewrite <- (Cmult_1_l b), <- (Cinv_l a N), <- Cmult_assoc, H. ring. Qed.
Lemma Cminus_zero (a b : C) : a - b = 0 -> a = b. Proof. intros H. replace a with (a - b + b) by ring. rewrite H. ring. Qed.
Lemma eig_vector m l : Eig m l -> exists u v : C, (u <> 0 \/ v <> 0) /\ m false false * u + m false true * v = l * u /\ m true false * u + m true true * v = l * v.
Proof.
  unfold Eig. intros H. destruct (Ceq_dec (m false true) 0) as [Z1|Z1]; [destruct (Ceq_dec (l - m false false) 0) as [Z2|Z2]|].
  - destruct (Ceq_dec (m true false) 0) as [Z3|Z3]; [destruct (Ceq_dec (l - m true true) 0) as [Z4|Z4]|].
    + exists (RtoC 1), (RtoC 0). split; [left; apply C1_nz|]. apply Cminus_zero in Z2. rewrite Z1, Z3, <- Z2. split; ring.
    + exists (l - m true true), (RtoC 0). split; [left; exact Z4|]. apply Cminus_zero in Z2. rewrite Z1, Z3, <- Z2. split; ring.
    + exists (l - m true true), (m true false). split; [right; exact Z3|]. apply Cminus_zero in Z2. rewrite Z1, <- Z2. split; ring.
  - exists (m false true), (l - m false false). split; [right; exact Z2|]. split; [ring|]. replace (l * (l - m false false)) with ((m false false - l) * (m true true - l) + m true true * (l - m false false)) by ring. rewrite H. ring.
  - exists (m false true), (l - m false false). split; [left; exact Z1|]. split; [ring|]. replace (l * (l - m false false)) with ((m false false - l) * (m true true - l) + m true true * (l - m false false)) by ring. rewrite H. ring.
Qed.
Lemma eig_det m l (u v : C) : (u <> 0 \/ v <> 0) -> m false false * u + m false true * v = l * u -> m true false * u + m true true * v = l * v -> Eig m l.
Proof.
  intros N H1 H2. unfold Eig. set (d := (m false false - l) * (m true true - l) - m false true * m true false).
  assert (A : (m false false - l) * u = - (m false true * v)) by (replace ((m false false - l) * u) with (m false false * u + m false true * v - l * u - m false true * v) by ring; rewrite H1; ring).
  assert (B : (m true true - l) * v = - (m true false * u)) by (replace ((m true true - l) * v) with (m true false * u + m true true * v - l * v - m true false * u) by ring; rewrite H2; ring).
  assert (D1 : d * u = 0) by (unfold d; replace (((m false false - l) * (m true true - l) - m false true * m true false) * u) with ((m true true - l) * ((m false false - l) * u) - m false true * m true false * u) by ring; rewrite A; replace ((m true true - l) * - (m false true * v)) with (- (m false true * ((m true true - l) * v))) by ring; rewrite B; ring).
  assert (D2 : d * v = 0) by (unfold d; replace (((m false false - l) * (m true true - l) - m false true * m true false) * v) with ((m false false - l) * ((m true true - l) * v) - m false true * m true false * v) by ring; rewrite B; replace ((m false false - l) * - (m true false * u)) with (- (m true false * ((m false false - l) * u))) by ring; rewrite A; ring).
  apply Cminus_zero. fold d. destruct N as [N|N]; [apply Cmult_zero in D1 as [D|D]|apply Cmult_zero in D2 as [D|D]]; try exact D; contradiction.
Qed.
Lemma cmat_eigen k cs t m l : ~ In t cs -> (eigenvalue (cmat k cs t m) l <-> (cs <> [] /\ l = k) \/ Eig m l).
Proof.
  intros T. split.
  - intros (psi & (x & Nx) & H). destruct (forallb x cs) eqn:F.
    + right. apply (eig_det m l (psi (upd x t false)) (psi (upd x t true))).
      * destruct (x t) eqn:X; [right|left]; rewrite <- X, upd_id; exact Nx.
      * specialize (H (upd x t false)). unfold cmat in H. rewrite forallb_upd, F, gate1_eq, upd_same, !upd_upd in H by exact T. exact H.
      * specialize (H (upd x t true)). unfold cmat in H. rewrite forallb_upd, F, gate1_eq, upd_same, !upd_upd in H by exact T. exact H.
    + left. split; [intros ->; discriminate F|]. specialize (H x). unfold cmat in H. rewrite F in H. symmetry. apply Cminus_zero. assert (Q : (k - l) * psi x = 0) by (replace ((k - l) * psi x) with (k * psi x - l * psi x) by ring; rewrite H; ring).
      apply Cmult_zero in Q as [Q|Q]; [exact Q|contradiction].
  - intros [[N ->]|E].
    + exists (fun x => if forallb x cs then RtoC 0 else RtoC 1). split.
      * exists zeros. destruct cs as [|c cs]; [contradiction|]. cbn. apply C1_nz.
      * intros x. unfold cmat. destruct (forallb x cs) eqn:F; [|reflexivity]. rewrite gate1_eq, !forallb_upd, F by exact T. ring.
    + apply eig_vector in E as (u & v & N & H1 & H2). exists (fun x => if forallb x cs then (if x t then v else u) else RtoC 0). split.
      * destruct N as [N|N]; [exists (upd (fun _ => true) t false)|exists (upd (fun _ => true) t true)]; rewrite forallb_upd, upd_same by exact T; rewrite (proj2 (forallb_forall _ cs)) by reflexivity; exact N.
      * intros x. unfold cmat. destruct (forallb x cs) eqn:F; [|ring]. rewrite gate1_eq, !forallb_upd, F, !upd_same by exact T. destruct (x t); assumption.
Qed.
Lemma gate1_cmat t m : gate1 t m = cmat 1 [] t m. Proof. reflexivity. Qed.
Lemma ctrl_cmat cs t m : ctrlop cs (gate1 t m) = cmat 1 cs t m.
Proof. extensionality psi. extensionality x. unfold ctrlop, cmat. destruct (forallb x cs); [reflexivity|ring]. Qed.
Lemma in_repeat (k : C) n (l : C) : In l (repeat k n) <-> (n <> 0)%nat /\ l = k.
Proof.
  induction n as [|n IH]; cbn [repeat In]; [split; [intros []|tauto]|]. rewrite IH. split; [intros [<-|[_ ->]]; split; congruence|intros [_ ->]; left; reflexivity].
Qed.
Lemma pow_big n : (n <> 0 -> 2 <= 2 ^ S n - 2)%nat.
Proof. intros H. destruct n as [|n]; [contradiction|]. cbn [Nat.pow]. pose proof (Nat.pow_nonzero 2 n). lia. Qed.
Lemma split_zero (a b l : C) : (a - l) * (b - l) = 0 <-> l = a \/ l = b.
Proof.
  split; [intros H; apply Cmult_zero in H as [H|H]; apply Cminus_zero in H; subst; tauto|]. intros [->| ->]; ring.
Qed.
Lemma eig_iff m (a b : C) : (forall l, (m false false - l) * (m true true - l) - m false true * m true false = (a - l) * (b - l)) -> forall l, Eig m l <-> l = a \/ l = b.
Proof. intros H l. rewrite <- split_zero, <- H. unfold Eig. split; intros Q; [rewrite Q; ring|apply Cminus_zero; exact Q]. Qed.
Definition prim_eigs (p : prim) : C * C :=
  match p with
  | PX | PY | PZ | PH => (RtoC (-1), RtoC 1) | PI_ => (RtoC 1, RtoC 1) | PN _ => (RtoC 0, RtoC 1) | PS => (RtoC 1, Ci) | PSdg => (RtoC 1, - Ci) | PT => (RtoC 1, cexp_i (PI / 4)%R) | PTdg => (RtoC 1, cexp_i (- (PI / 4))%R) | PZero => (RtoC 0, RtoC 0)
  end.
Lemma neg1 : RtoC (-1) = - (1). Proof. apply Ceq; simpl; lra. Qed.
Lemma Ci_sq : Ci * Ci = - (1). Proof. unfold Ci. apply Ceq; simpl; ring. Qed.
Lemma half_sqrt : / RtoC (sqrt 2) * / RtoC (sqrt 2) = RtoC (1 / 2).
Proof.
  assert (0 < sqrt 2)%R by (apply sqrt_lt_R0; lra). assert (N : sqrt 2 <> 0%R) by lra. rewrite <- RtoC_inv by exact N. rewrite <- RtoC_mult. f_equal. rewrite <- Rinv_mult. rewrite sqrt_sqrt by lra. lra.
Qed.
Lemma prim_eig p l : Eig (prim_mat p) l <-> l = fst (prim_eigs p) \/ l = snd (prim_eigs p).
Proof.
  revert l. destruct p as [| | | | | | | | | |[]]; apply eig_iff; intros l; cbn [prim_mat mat2 prim_eigs fst snd]; unfold cexp_i, cis; rewrite ?neg1; try ring.
  - replace ((0 - l) * (0 - l) - - Ci * Ci) with (l * l + Ci * Ci) by ring. rewrite Ci_sq. ring.
  - replace ((/ RtoC (sqrt 2) - l) * (- / RtoC (sqrt 2) - l) - / RtoC (sqrt 2) * / RtoC (sqrt 2)) with (l * l - (/ RtoC (sqrt 2) * / RtoC (sqrt 2) + / RtoC (sqrt 2) * / RtoC (sqrt 2))) by ring.
    rewrite half_sqrt, <- RtoC_plus. replace (1 / 2 + 1 / 2)%R with 1%R by field. ring.
Qed.
Definition rot_eigs (r : rot) (t : R) : C * C := match r with RPhase => (RtoC 1, cexp_i t) | _ => (lmbd t, Cconj (lmbd t)) end.
Lemma rot_eig r t l : Eig (rot_mat r t) l <-> l = fst (rot_eigs r t) \/ l = snd (rot_eigs r t).
Proof.
  revert l. pose proof (sin2_cos2 (t / 2)) as Q. unfold Rsqr in Q.
  assert (N : lmbd t * Cconj (lmbd t) = 1) by (unfold lmbd, Cconj; cbn [fst snd]; apply Ceq; simpl; [lra|ring]).
  assert (P : lmbd t + Cconj (lmbd t) = RtoC (cos (t / 2)) + RtoC (cos (t / 2))) by (unfold lmbd, Cconj; cbn [fst snd]; apply Ceq; simpl; ring).
  assert (S1 : RtoC (sin (t / 2)) * RtoC (sin (t / 2)) + RtoC (cos (t / 2)) * RtoC (cos (t / 2)) = 1) by (rewrite <- !RtoC_mult, <- RtoC_plus; f_equal; exact Q).
  assert (G : forall l, (lmbd t - l) * (Cconj (lmbd t) - l) = 1 - l * (RtoC (cos (t / 2)) + RtoC (cos (t / 2))) + l * l) by (intros l; rewrite <- N, <- P; ring).
  destruct r; apply eig_iff; intros l; cbn [rot_mat mat2 rot_eigs fst snd].
  - rewrite G, <- S1. replace (- Ci * RtoC (sin (t / 2)) * (- Ci * RtoC (sin (t / 2)))) with ((Ci * Ci) * (RtoC (sin (t / 2)) * RtoC (sin (t / 2)))) by ring. rewrite Ci_sq. ring.
  - rewrite G, <- S1. ring.
  - replace (cis (- (t / 2))) with (lmbd t) by (unfold cis, lmbd; rewrite cos_neg, sin_neg; reflexivity). replace (cis (t / 2)) with (Cconj (lmbd t)) by (unfold cis, lmbd, Cconj; cbn [fst snd]; f_equal; ring). ring.
  - unfold cis, cexp_i. ring.
Qed.

(** * Swaps *)
Lemma invol_eigen A l : (forall c psi x, A (fun y => c * psi y) x = c * A psi x) -> (forall psi x, A (A psi) x = psi x) -> eigenvalue A l -> l = RtoC (-1) \/ l = 1.
Proof.
  intros L I (psi & (x & N) & H). assert (E : A psi = fun y => l * psi y) by (extensionality y; apply H). assert (Q : l * l * psi x = psi x) by (rewrite <- (I psi x) at 2; rewrite E, L, H; ring).
  assert (Z : (l * l - 1) * psi x = 0) by (replace ((l * l - 1) * psi x) with (l * l * psi x - psi x) by ring; rewrite Q; ring). apply Cmult_zero in Z as [Z|Z]; [|contradiction].
  replace (l * l - 1) with ((RtoC (-1) - l) * (1 - l)) in Z by (rewrite neg1; ring). apply split_zero in Z. exact Z.
Qed.
Definition exch (a b : nat) (x : asg) : asg := upd (upd x a (x b)) b (x a).
Lemma exch_exch a b x : a <> b -> exch a b (exch a b x) = x.
Proof.
  intros N. unfold exch. extensionality q. destruct (Nat.eq_dec q b) as [->|Nb]; [rewrite upd_same, upd_other, upd_same by congruence; reflexivity|].
  rewrite upd_other by exact Nb. destruct (Nat.eq_dec q a) as [->|Na]; [rewrite !upd_same; reflexivity|]. rewrite !upd_other by congruence. reflexivity.
Qed.
Lemma forallb_exch cs a b x : ~ In a cs -> ~ In b cs -> forallb (exch a b x) cs = forallb x cs.
Proof. intros A B. unfold exch. rewrite !forallb_upd by assumption. reflexivity. Qed.
Lemma swap_eigen cs a b l : a <> b -> ~ In a cs -> ~ In b cs -> (eigenvalue (ctrlop cs (swapop a b)) l <-> l = RtoC (-1) \/ l = 1).
Proof.
  intros N A B. split.
  - apply invol_eigen; intros; unfold ctrlop.
    + destruct (forallb x cs); reflexivity.
    + unfold swapop. fold (exch a b x). rewrite (forallb_exch cs a b x A B). destruct (forallb x cs); [|reflexivity]. fold (exch a b (exch a b x)). rewrite exch_exch by exact N. reflexivity.
  - assert (SA : forall x, exch a b x a = x b) by (intros x; unfold exch; rewrite upd_other, upd_same by congruence; reflexivity). assert (SB : forall x, exch a b x b = x a) by (intros x; unfold exch; rewrite upd_same; reflexivity).
    intros [->| ->].
    + exists (fun x => if forallb x cs then (if x a then (if x b then RtoC 0 else RtoC 1) else (if x b then RtoC (-1) else RtoC 0)) else RtoC 0). split.
      * exists (upd (fun _ => true) b false). rewrite forallb_upd, upd_same, upd_other by assumption. rewrite (proj2 (forallb_forall _ cs)) by reflexivity. apply C1_nz.
      * intros x. unfold ctrlop, swapop. fold (exch a b x). rewrite forallb_exch, SA, SB by assumption. destruct (forallb x cs); [|ring]. destruct (x a), (x b); rewrite ?neg1; ring.
    + exists (fun _ => RtoC 1). split; [exists zeros; apply C1_nz|]. intros x. unfold ctrlop, swapop. destruct (forallb x cs); ring.
Qed.

(** The declared eigenvalues of an operation are exactly the eigenvalues of its operator, and as many as the dimension. *)
Theorem C91_eigenvalues : forall eigvals rho b l, operation b -> eigenvalues eigvals rho b = Some l ->
  (forall c, In c l <-> eigenvalue (den rho b) c) /\ length l = (2 ^ length (qubits b))%nat.
Proof.
  intros eigvals rho b l W H.
  assert (P1 : forall c : C, forall n, (n <> 0)%nat -> In c (repeat (RtoC 1) n) <-> c = 1) by (intros c n Hn; rewrite in_repeat; tauto).
  destruct b as [p q|kt br qs|r q e|q e1 e2 e3|a c|c a d|cs b|cs b|b e|bs|bs|bs|m qs|g t]; try (contradiction W; fail).
  - assert (L : l = [fst (prim_eigs p); snd (prim_eigs p)]) by (destruct p as [| | | | | | | | | |[]]; cbn in H; injection H as <-; reflexivity). subst l. split; [|reflexivity].
    intros c. cbn [In den]. rewrite gate1_cmat, cmat_eigen by tauto. rewrite prim_eig. split; [intros [E|[E|[]]]; subst; tauto|intros [[E _]|[E|E]]; [contradiction|..]; subst; tauto].
  - assert (L : l = [fst (rot_eigs r (ang rho e)); snd (rot_eigs r (ang rho e))]) by (destruct r; cbn in H; injection H as <-; reflexivity). subst l. split; [|reflexivity].
    intros c. cbn [In den]. rewrite gate1_cmat, cmat_eigen by tauto. rewrite rot_eig. split; [intros [E|[E|[]]]; subst; tauto|intros [[E _]|[E|E]]; [contradiction|..]; subst; tauto].
  - discriminate H.
  - cbn [eigenvalues] in H. injection H as <-. cbn [operation] in W. split; [|reflexivity]. intros l. cbn [den In]. change (swapop a c) with (ctrlop [] (swapop a c)). rewrite swap_eigen by (exact W || tauto). split; [intros [<-|[<-|[<-|[<-|[]]]]]; tauto|intros [->| ->]; tauto].
  - cbn [eigenvalues] in H. injection H as <-. destruct W as (W1 & W2 & W3). split; [|reflexivity]. intros l. cbn [den In]. rewrite swap_eigen by (exact W3 || cbn; intuition congruence). split; [intros [<-|[<-|[<-|[<-|[<-|[<-|[<-|[<-|[]]]]]]]]]; tauto|intros [->| ->]; tauto].
  - destruct b as [p t| | | | | | | | | | | | |]; try contradiction W. destruct W as [W1 W2]. destruct p; try discriminate H. cbn [eigenvalues] in H. injection H as <-.
    assert (Z : (2 ^ S (length cs) - 1 <> 0)%nat) by (cbn [Nat.pow]; pose proof (Nat.pow_nonzero 2 (length cs)); lia). split.
    + intros c. cbn [den In]. rewrite P1 by exact Z. rewrite ctrl_cmat, cmat_eigen by exact W2. rewrite prim_eig. cbn [prim_eigs fst snd]. split; [intros [<-|E]; tauto|intros [[_ E]|[E|E]]; subst; tauto].
    + cbn [length qubits]. rewrite repeat_length, app_length. cbn [length]. rewrite Nat.add_1_r. cbn [Nat.pow] in *. lia.
  - destruct b as [| |r t e| | | | | | | | | | |]; try contradiction W. destruct W as [W1 W2]. assert (LC : length cs <> 0%nat) by (destruct cs; [contradiction|discriminate]). pose proof (pow_big _ LC) as Z.
    assert (LQ : length (qubits (BPCtrl cs (BRot r t e))) = S (length cs)) by (cbn [qubits]; rewrite app_length; cbn [length]; lia). rewrite LQ.
    assert (G : forall n x y, (n <> 0)%nat -> (forall c, c = x \/ c = y <-> Eig (rot_mat r (ang rho e)) c) -> forall c, In c (repeat (RtoC 1) n ++ [x; y]) <-> eigenvalue (den rho (BPCtrl cs (BRot r t e))) c).
    { intros n x y Hn E c. cbn [den]. rewrite ctrl_cmat, cmat_eigen by exact W2. rewrite <- E, in_app_iff, P1 by exact Hn. cbn [In]. split; [intros [Q|[Q|[Q|[]]]]; subst; tauto|intros [[_ Q]|[Q|Q]]; subst; tauto]. }
    destruct r; cbn [eigenvalues] in H; injection H as <-; (split; [|rewrite app_length, repeat_length; cbn [length Nat.pow] in *; lia]).
    1-3: apply G; [cbn [Nat.pow] in *; lia|]; intros c; rewrite rot_eig; cbn [rot_eigs fst snd]; tauto.
    intros c. rewrite <- (G (2 ^ S (length cs) - 2)%nat 1 (cexp_i (ang rho e))); [|cbn [Nat.pow] in *; lia|intros c'; rewrite rot_eig; cbn [rot_eigs fst snd]; tauto].
    rewrite !in_app_iff, !P1 by (cbn [Nat.pow] in *; lia). cbn [In]. split; [intros [Q|[Q|[]]]; subst; tauto|intros [Q|[Q|[Q|[]]]]; subst; tauto].
Qed.

(** * Declared generators *)
Definition madd (m n : bool -> bool -> C) (a b : bool) : C := m a b + n a b.
Definition mscale (k : C) (m : bool -> bool -> C) (a b : bool) : C := k * m a b.
Lemma gate1_add q m n : addop (gate1 q m) (gate1 q n) = gate1 q (madd m n).
Proof. extensionality psi. extensionality x. unfold addop. rewrite !gate1_eq. unfold madd. ring. Qed.
Lemma gate1_scale q k m : scaleop k (gate1 q m) = gate1 q (mscale k m).
Proof. extensionality psi. extensionality x. unfold scaleop. rewrite !gate1_eq. unfold mscale. ring. Qed.
Lemma den_times rho c b : den rho (times c b) = scaleop (RtoC c) (den rho b). Proof. apply C05_scale. Qed.
Lemma controls rho cs psi x : den rho (BKron (map (BPrim (PN true)) cs)) psi x = if forallb x cs then psi x else 0.
Proof.
  revert psi. induction cs as [|c cs IH]; intros psi; [reflexivity|]. change (den rho (BKron (map (BPrim (PN true)) (c :: cs))) psi) with (den rho (BKron (map (BPrim (PN true)) cs)) (gate1 c (prim_mat (PN true)) psi)).
  rewrite IH, n_rdiag. cbn [forallb]. unfold rdiag, b2r. destruct (x c), (forallb x cs); cbn [andb]; ring.
Qed.
Lemma den_when rho cs t b m : ~ In t cs -> den rho b = gate1 t m -> den rho (when cs b) = cmat 0 cs t m.
Proof.
  intros T H. extensionality psi. extensionality x. unfold when.
  assert (A : forall l psi, den rho (BKron (l ++ [b])) psi = den rho b (den rho (BKron l) psi)) by (induction l as [|y l IH]; intros phi; [reflexivity|apply (IH (den rho y phi))]).
  rewrite A, H, gate1_eq, !controls, !forallb_upd by exact T. unfold cmat. rewrite gate1_eq. destruct (forallb x cs); ring.
Qed.
Lemma pair_eq a b m n psi x : a <> b -> seqop (gate1 a m) (gate1 b n) psi x =
  n (x b) false * (m (x a) false * psi (upd (upd x a false) b false) + m (x a) true * psi (upd (upd x a true) b false)) +
  n (x b) true * (m (x a) false * psi (upd (upd x a false) b true) + m (x a) true * psi (upd (upd x a true) b true)).
Proof.
  intros N. unfold seqop. rewrite gate1_eq, !gate1_eq, !(upd_other x b _ a) by exact N. rewrite !(upd_comm x b a) by congruence. reflexivity.
Qed.
Lemma upd_set x q v : x q = v -> upd x q v = x. Proof. intros <-. apply upd_id. Qed.
(** the two halves of the declared generator of SWAP are the same *)
Lemma swap_generator_eq rho c t psi x : c <> t -> den rho (swap_generator c t) psi x =
  if x c then if x t then 0 else RtoC (-2) * psi x else if x t then RtoC 2 * psi (upd (upd x c true) t false) else 0.
Proof.
  intros N. unfold swap_generator. cbv zeta. rewrite !C05_add. unfold addop.
  assert (A11 : den rho (times (1 / 2) (op_sub (BPrim PZ c) (BPrim PI_ c))) = gate1 c (mat2 0 0 0 (- (1)))).
  { rewrite den_times, C05_sub. cbn [den]. rewrite gate1_scale, gate1_add, gate1_scale. apply L_Gates.gate1_ext. intros [] []; unfold mscale, madd; cbn [prim_mat mat2]; try ring. apply Ceq; simpl; field. }
  assert (A22 : den rho (times (- (1 / 2)) (op_add (BPrim PZ t) (BPrim PI_ t))) = gate1 t (mat2 (- (1)) 0 0 0)).
  { rewrite den_times, C05_add. cbn [den]. rewrite gate1_add, gate1_scale. apply L_Gates.gate1_ext. intros [] []; unfold mscale, madd; cbn [prim_mat mat2]; try ring. apply Ceq; simpl; field. }
  assert (A12 : den rho (times (1 / 2) (op_add (BChain [BPrim PX c; BPrim PZ c]) (BPrim PX c))) = gate1 c (mat2 0 1 0 0)).
  { rewrite den_times, C05_add. cbn [den fold_right]. rewrite seqop_id_r, L_Gates.gate1_gate1, gate1_add, gate1_scale. apply L_Gates.gate1_ext. intros [] []; unfold mscale, madd, L_Gates.mmul; cbn [prim_mat mat2]; try ring. apply Ceq; simpl; field. }
  assert (A21 : den rho (times (1 / 2) (op_add (BChain [BPrim PZ t; BPrim PX t]) (BPrim PX t))) = gate1 t (mat2 0 0 1 0)).
  { rewrite den_times, C05_add. cbn [den fold_right]. rewrite seqop_id_r, L_Gates.gate1_gate1, gate1_add, gate1_scale. apply L_Gates.gate1_ext. intros [] []; unfold mscale, madd, L_Gates.mmul; cbn [prim_mat mat2]; try ring. apply Ceq; simpl; field. }
  assert (K : forall u v, den rho (BKron [u; v]) = seqop (den rho u) (den rho v)) by (intros; cbn [den fold_right]; rewrite seqop_id_r; reflexivity).
  rewrite !K, !(den_times rho (-1)), A11, A22, A12, A21, !gate1_scale, !pair_eq by congruence. unfold mscale. destruct (x c) eqn:Xc, (x t) eqn:Xt; cbn [mat2].
  - ring.
  - rewrite !(upd_comm _ c t) by exact N. rewrite (upd_set x t false Xt), (upd_set x c true Xc). apply Ceq; simpl; ring.
  - rewrite !(upd_comm _ c t) by exact N. apply Ceq; simpl; ring.
  - ring.
Qed.

Ltac some_inj H := match type of H with Some ?x = Some ?y => assert (y = x) by congruence; subst y; clear H end.
(** The declared eigenvalues of the generator are exactly the eigenvalues of the declared generator, for all operations but S, T, their daggers
    and CSWAP (refuted below), and MCZ, which refuses. *)
Theorem C91_generator : forall eigvals rho b g l, operation b -> ~ (exists p q, b = BPrim p q /\ In p [PS; PSdg; PT; PTdg]) -> ~ (exists c a d, b = BCSwap c a d) ->
  generator b = Some g -> eigenvalues_generator eigvals b = Spectrum l -> forall c, In c (map RtoC l) <-> eigenvalue (den rho g) c.
Proof.
  intros eigvals rho b g l W X1 X2 G L.
  assert (One : forall q m x y, den rho g = gate1 q m -> (forall l, (m false false - l) * (m true true - l) - m false true * m true false = (RtoC x - l) * (RtoC y - l)) -> forall c, In c (map RtoC [x; y]) <-> eigenvalue (den rho g) c).
  { intros q m x y E H c. rewrite E, gate1_cmat, cmat_eigen by tauto. rewrite (eig_iff m _ _ H). cbn [map In]. split; [intros [<-|[<-|[]]]; tauto|intros [[Q _]|[Q|Q]]; [contradiction|..]; subst; tauto]. }
  assert (Ctl : forall cs t b' m x y, cs <> [] -> ~ In t cs -> g = when cs b' -> den rho b' = gate1 t m -> (forall l, (m false false - l) * (m true true - l) - m false true * m true false = (RtoC x - l) * (RtoC y - l)) ->
    (forall r, In r l <-> r = 0%R \/ r = x \/ r = y) -> forall c, In c (map RtoC l) <-> eigenvalue (den rho g) c).
  { intros cs t b' m x y W1 W2 -> D H I c. rewrite (den_when rho cs t b' m W2 D), cmat_eigen by exact W2. rewrite (eig_iff m _ _ H). rewrite in_map_iff. split.
    - intros (r & <- & Hr). apply I in Hr as [->|[->| ->]]; tauto.
    - intros [[_ ->]|[->| ->]]; eexists; (split; [reflexivity|apply I; tauto]). }
  assert (R0 : forall n r, In r (repeat 0%R n) -> r = 0%R) by (intros n r Hr; apply repeat_spec in Hr; exact Hr).
  destruct b as [p q|kt br qs|r q e|q e1 e2 e3|a c|c a d|cs b|cs b|b e|bs|bs|bs|m qs|g' t]; try (contradiction W; fail).
  - destruct p as [| | | | | | | | | |[]]; cbn [generator eigenvalues_generator] in G, L; try discriminate G; try (exfalso; apply X1; do 2 eexists; split; [reflexivity|cbn; tauto]); some_inj G; injection L as <-.
    1-4: apply (One q _ _ _ eq_refl); intros l; cbn [prim_mat mat2]; rewrite ?neg1; try ring.
    + replace ((0 - l) * (0 - l) - - Ci * Ci) with (l * l + Ci * Ci) by ring. rewrite Ci_sq. ring.
    + eapply (One q); [rewrite den_times, C05_sub, C05_add, den_times; cbn [den]; rewrite gate1_add, !gate1_scale, gate1_add, gate1_scale; reflexivity|]. intros l. unfold mscale, madd. cbn [prim_mat mat2].
      assert (0 < sqrt 2)%R by (apply sqrt_lt_R0; lra). assert (S2 : RtoC (1 / sqrt 2) * RtoC (sqrt 2) = 1) by (rewrite <- RtoC_mult; f_equal; field; lra).
      assert (S1 : RtoC (1 / sqrt 2) * RtoC (1 / sqrt 2) = RtoC (1 / 2)) by (rewrite <- RtoC_mult; f_equal; replace (1 / sqrt 2 * (1 / sqrt 2))%R with (1 / (sqrt 2 * sqrt 2))%R by (field; lra); rewrite sqrt_sqrt by lra; reflexivity).
      set (a := RtoC (1 / sqrt 2)) in *. set (s := RtoC (sqrt 2)) in *.
      transitivity ((1 - a * s) * (1 - a * s) + (1 + l) * (1 + l) - (a * a + a * a) - (1 - a * s) * (1 - a * s) - (1 + l) * (1 + l) + (- (a * s) - l) * (- (a * s) - l)); [ring|]. rewrite S2, S1, <- RtoC_plus. replace (1 / 2 + 1 / 2)%R with 1%R by field. replace (RtoC (-2)) with (- (1 + 1)) by (apply Ceq; simpl; ring). ring.
    + eapply (One 0%nat); [rewrite den_times; cbn [den]; rewrite gate1_scale; reflexivity|]. intros l. unfold mscale. cbn [prim_mat mat2]. ring.
  - destruct r; cbn [generator eigenvalues_generator] in G, L; some_inj G; injection L as <-.
    + apply (One q _ _ _ eq_refl). intros l. cbn [prim_mat mat2]. rewrite ?neg1. ring.
    + apply (One q _ _ _ eq_refl). intros l. cbn [prim_mat mat2]. rewrite neg1. replace ((0 - l) * (0 - l) - - Ci * Ci) with (l * l + Ci * Ci) by ring. rewrite Ci_sq. ring.
    + apply (One q _ _ _ eq_refl). intros l. cbn [prim_mat mat2]. rewrite neg1. ring.
    + eapply (One q); [rewrite C05_sub; cbn [den]; rewrite gate1_scale, gate1_add; reflexivity|]. intros l. unfold mscale, madd. cbn [prim_mat mat2]. replace (RtoC 2) with (1 + 1) by (apply Ceq; simpl; ring). ring.
  - cbn [generator eigenvalues_generator] in G, L. some_inj G. injection L as <-. eapply (One q); [cbn [den fold_right]; rewrite seqop_id_r, !L_Gates.gate1_gate1; reflexivity|].
    intros l. unfold L_Gates.mmul. cbn [prim_mat mat2]. rewrite neg1. transitivity (l * l + Ci * Ci); [ring|]. rewrite Ci_sq. ring.
  - cbn [generator eigenvalues_generator] in G, L. some_inj G. injection L as <-. cbn [operation] in W. intros l. cbn [map In]. split.
    + intros H. assert (H' : l = RtoC (-2) \/ l = 0) by (destruct H as [<-|[<-|[<-|[<-|[]]]]]; tauto). destruct H' as [->| ->].
      * exists (fun x : asg => if x a then if x c then RtoC 0 else RtoC 1 else if x c then RtoC (-1) else RtoC 0). split.
        -- exists (upd (fun _ => true) c false). rewrite upd_same, upd_other by exact W. apply C1_nz.
        -- intros x. rewrite swap_generator_eq by exact W. rewrite upd_same. rewrite (upd_other _ c false a) by exact W. rewrite upd_same. destruct (x a), (x c); apply Ceq; simpl; ring.
      * exists (fun x : asg => if x a then if x c then RtoC 1 else RtoC 0 else RtoC 1). split; [exists zeros; apply C1_nz|].
        intros x. rewrite swap_generator_eq by exact W. rewrite upd_same. rewrite (upd_other _ c false a) by exact W. rewrite upd_same. destruct (x a), (x c); apply Ceq; simpl; ring.
    + intros (psi & (x & Nx) & H). assert (Q : forall y, den rho (swap_generator a c) psi y = l * psi y) by exact H. clear H.
      destruct (Ceq_dec l 0) as [->|N0]; [tauto|]. destruct (Ceq_dec l (RtoC (-2))) as [->|N2]; [tauto|]. exfalso. apply Nx.
      assert (Z : forall y, l * psi y = 0 -> psi y = 0) by (intros y Hy; apply Cmult_zero in Hy as [Hy|Hy]; [contradiction|exact Hy]).
      assert (P : forall y, y a = true -> y c = false -> psi y = 0).
      { intros y Ya Yc. specialize (Q y). rewrite swap_generator_eq, Ya, Yc in Q by exact W. assert (E : (RtoC (-2) - l) * psi y = 0) by (replace ((RtoC (-2) - l) * psi y) with (RtoC (-2) * psi y - l * psi y) by ring; rewrite Q; ring).
        apply Cmult_zero in E as [E|E]; [apply Cminus_zero in E; congruence|exact E]. }
      pose proof (Q x) as Qx. rewrite swap_generator_eq in Qx by exact W. destruct (x a) eqn:Xa, (x c) eqn:Xc; try (apply Z; symmetry; exact Qx).
      * apply P; assumption.
      * apply Z. rewrite <- Qx, P; [ring|rewrite upd_other, upd_same by exact W; reflexivity|apply upd_same].
  - exfalso. apply X2. eauto.
  - destruct b as [p t| | | | | | | | | | | | |]; try contradiction W. destruct W as [W1 W2]. destruct p; cbn [generator] in G; try discriminate G; try discriminate L.
    some_inj G. cbn [eigenvalues_generator] in L. injection L as <-.
    eapply (Ctl cs t _ _ (-2)%R 0%R W1 W2 eq_refl); [rewrite C05_sub; cbn [den]; rewrite gate1_scale, gate1_add; reflexivity|..].
    + intros l. unfold mscale, madd. cbn [prim_mat mat2]. replace (RtoC (-2)) with (- (1 + 1)) by (apply Ceq; simpl; ring). ring.
    + assert (Z : forall n, (n <> 0)%nat -> In 0%R (repeat 0%R n)) by (intros [|n] Hn; [contradiction|left; reflexivity]).
      intros r. split; [intros [<-|H]; [tauto|left; exact (R0 _ _ H)]|]. intros H. assert (H' : r = 0%R \/ r = (-2)%R) by tauto. destruct H' as [->| ->]; [right|left; reflexivity].
      apply Z. cbn [Nat.pow]. pose proof (Nat.pow_nonzero 2 (length cs)). lia.
  - destruct b as [| |r t e| | | | | | | | | | |]; try contradiction W. destruct W as [W1 W2].
    assert (LC : length cs <> 0%nat) by (destruct cs; [contradiction|discriminate]). pose proof (pow_big _ LC) as Z. cbn [eigenvalues_generator] in L. unfold spectrum_mcrot, spectrum_mcphase in L.
    destruct (2 ^ S (length cs) - 2)%nat as [|n] eqn:En; [cbn [Nat.pow] in *; lia|].
    destruct r; cbn [generator] in G; some_inj G; cbn [repeat app] in L; injection L as <-.
    1-3: eapply (Ctl cs t _ _ (-1)%R 1%R W1 W2 eq_refl eq_refl).
    7: eapply (Ctl cs t _ _ (-2)%R 0%R W1 W2 eq_refl); [rewrite C05_sub; cbn [den]; rewrite gate1_scale, gate1_add; reflexivity|..].
    + intros l. cbn [prim_mat mat2]. rewrite neg1. ring.
    + intros r. cbn [In]. rewrite in_app_iff. cbn [In]. split; [intros [<-|[H|[<-|[<-|[]]]]]; [tauto|left; exact (R0 _ _ H)|tauto..]|intros [->|[->| ->]]; tauto].
    + intros l. cbn [prim_mat mat2]. rewrite neg1. replace ((0 - l) * (0 - l) - - Ci * Ci) with (l * l + Ci * Ci) by ring. rewrite Ci_sq. ring.
    + intros r. cbn [In]. rewrite in_app_iff. cbn [In]. split; [intros [<-|[H|[<-|[<-|[]]]]]; [tauto|left; exact (R0 _ _ H)|tauto..]|intros [->|[->| ->]]; tauto].
    + intros l. cbn [prim_mat mat2]. rewrite neg1. ring.
    + intros r. cbn [In]. rewrite in_app_iff. cbn [In]. split; [intros [<-|[H|[<-|[<-|[]]]]]; [tauto|left; exact (R0 _ _ H)|tauto..]|intros [->|[->| ->]]; tauto].
    + intros l. unfold mscale, madd. cbn [prim_mat mat2]. replace (RtoC (-2)) with (- (1 + 1)) by (apply Ceq; simpl; ring). ring.
    + intros r. cbn [In]. split; [intros [<-|[<-|[<-|H]]]; [tauto..|left; exact (R0 _ _ H)]|intros [->|[->| ->]]; tauto].
Qed.
Lemma one_minus_z rho q c : eigenvalue (den rho (op_sub (BPrim PI_ q) (BPrim PZ q))) c <-> c = 0 \/ c = RtoC 2.
Proof.
  rewrite C05_sub. cbn [den]. rewrite gate1_scale, gate1_add, gate1_cmat, cmat_eigen by tauto. rewrite (eig_iff _ (RtoC 0) (RtoC 2)).
  - split; [intros [[Q _]|Q]; [contradiction|exact Q]|tauto].
  - intros l. unfold mscale, madd. cbn [prim_mat mat2]. replace (RtoC 2) with (1 + 1) by (apply Ceq; simpl; ring). ring.
Qed.
(** S, T and their daggers declare the eigenvalues 0 and 1 for a generator with the eigenvalues 0 and 2. *)
Theorem C91_generator_refuted : forall eigvals rho p q, In p [PS; PSdg; PT; PTdg] -> exists g,
  generator (BPrim p q) = Some g /\ eigenvalues_generator eigvals (BPrim p q) = Spectrum [0; 1]%R /\ forall c, eigenvalue (den rho g) c <-> c = 0 \/ c = RtoC 2.
Proof.
  intros eigvals rho p q H. exists (op_sub (BPrim PI_ q) (BPrim PZ q)). destruct H as [<-|[<-|[<-|[<-|[]]]]]; (split; [reflexivity|]; split; [reflexivity|]; intros c; apply one_minus_z).
Qed.
(** A factor multiplies the eigenvalues, but is not in the declared ones. *)
Theorem C91_scale : forall eigvals rho b e l, operation b -> eigenvalues eigvals rho b = Some l -> eigenvalues eigvals rho (BScale b e) = Some l /\
  forall c, eigenvalue (den rho b) c -> eigenvalue (den rho (BScale b e)) (ev rho e * c).
Proof.
  intros eigvals rho b e l W H. split; [exact H|]. intros c (psi & N & Q). exists psi. split; [exact N|]. intros x. cbn [den]. unfold scaleop. rewrite Q. ring.
Qed.
(** The eigenvalues of a scaled block are declared to be those of the block without its factor: -1 and 1 for 2*X. *)
Theorem C91_scale_refuted : forall eigvals rho, eigenvalues eigvals rho (BScale (BPrim PX 0) (ECst (RtoC 2))) = Some [RtoC (-1); RtoC 1] /\ forall c, eigenvalue (den rho (BScale (BPrim PX 0) (ECst (RtoC 2)))) c <-> c = RtoC (-2) \/ c = RtoC 2.
Proof.
  intros eigvals rho. split; [reflexivity|]. intros c. cbn [den ev]. rewrite gate1_scale, gate1_cmat, cmat_eigen by tauto. rewrite (eig_iff _ (RtoC (-2)) (RtoC 2)); [split; [intros [[Q _]|Q]; [contradiction|exact Q]|tauto]|].
  intros l. unfold mscale. cbn [prim_mat mat2]. replace (RtoC 2) with (1 + 1) by (apply Ceq; simpl; ring). replace (RtoC (-2)) with (- (1 + 1)) by (apply Ceq; simpl; ring). ring.
Qed.

(** * What the generators generate *)
Lemma evolves_eigen H t E psi (l : R) : linear H -> (forall x, H psi x = RtoC l * psi x) -> evolves H t E -> forall x, E psi x = cis (- (t * l)) * psi x.
Proof.
  intros [_ L] Q Ev x. assert (P : forall k, power (scaleop (- Ci * RtoC t) H) k psi = fun y => cpow (- Ci * RtoC (t * l)) k * psi y).
  { induction k as [|k IH]; extensionality y; cbn [power cpow]; [ring|]. unfold scaleop at 1. rewrite IH, L, Q, RtoC_mult. ring. }
  specialize (Ev psi x). cbv zeta in Ev. change (cser (fun k => RtoC (/ INR (fact k)) * power (scaleop (- Ci * RtoC t) H) k psi x) (E psi x)) in Ev. eapply cser_unique; [exact Ev|].
  apply (cser_ext (fun k => (ifact k * cpow (- Ci * RtoC (t * l)) k) * psi x)); [intros k; rewrite P; unfold ifact; ring|]. apply cser_scal_r, scalar_series.
Qed.
(** The declared eigenvalues of a time evolution are eigenvalues of it, for the eigenvalues of the generator torch finds. *)
Theorem C91_evolution : forall eigvals rho g t l, (forall r, In r (eigvals g) -> eigenvalue (den rho g) (RtoC r)) ->
  eigenvalues eigvals rho (BEvo g t) = Some l -> length l = length (eigvals g) /\ forall c, In c l -> eigenvalue (den rho (BEvo g t)) c.
Proof.
  intros eigvals rho g t l H E. cbn [eigenvalues] in E. some_inj E. split; [apply map_length|]. intros c Hc. apply in_map_iff in Hc as (r & <- & Hr). destruct (H r Hr) as (psi & N & Q).
  exists psi. split; [exact N|]. apply (evolves_eigen (den rho g) (ang rho t)); [apply den_linear|exact Q|apply evolves_den].
Qed.
Lemma power_cmat (s : R) cs t m psi x k : ~ In t cs -> (forall phi y, gate1 t m (gate1 t m phi) y = phi y) -> power (scaleop (- Ci * RtoC s) (cmat 0 cs t m)) k psi x =
  if forallb x cs then RtoC (1 / 2) * (cpow (- Ci * RtoC s) k + cpow (- Ci * RtoC (- s)) k) * psi x + RtoC (1 / 2) * (cpow (- Ci * RtoC s) k - cpow (- Ci * RtoC (- s)) k) * gate1 t m psi x
  else cpow (- Ci * RtoC 0) k * psi x.
Proof.
  intros T I. revert x. induction k as [|k IH]; intros x; cbn [power cpow].
  - destruct (forallb x cs); [|ring]. replace (RtoC (1 / 2) * (1 + 1)) with (RtoC 1) by (apply Ceq; simpl; field). ring.
  - unfold scaleop at 1, cmat at 1. destruct (forallb x cs) eqn:F; [|ring]. rewrite gate1_eq, !IH, !forallb_upd, F by exact T. pose proof (I psi x) as J. rewrite gate1_eq in J. rewrite <- J. rewrite (gate1_eq t m psi x). rewrite RtoC_opp. ring.
Qed.
Lemma evolves_cmat s cs t m : ~ In t cs -> (forall phi y, gate1 t m (gate1 t m phi) y = phi y) ->
  evolves (cmat 0 cs t m) s (fun psi x => if forallb x cs then RtoC (cos s) * psi x - Ci * RtoC (sin s) * gate1 t m psi x else psi x).
Proof.
  intros T I psi x. cbv zeta. change (cser (fun k => RtoC (/ INR (fact k)) * power (scaleop (- Ci * RtoC s) (cmat 0 cs t m)) k psi x) (if forallb x cs then RtoC (cos s) * psi x - Ci * RtoC (sin s) * gate1 t m psi x else psi x)).
  destruct (forallb x cs) eqn:F.
  - apply (cser_ext (fun k => (ifact k * cpow (- Ci * RtoC s) k) * (RtoC (1 / 2) * (psi x + gate1 t m psi x)) + (ifact k * cpow (- Ci * RtoC (- s)) k) * (RtoC (1 / 2) * (psi x - gate1 t m psi x)))).
    + intros k. rewrite power_cmat by assumption. rewrite F. unfold ifact. ring.
    + replace (RtoC (cos s) * psi x - Ci * RtoC (sin s) * gate1 t m psi x) with (cis (- s) * (RtoC (1 / 2) * (psi x + gate1 t m psi x)) + cis (- - s) * (RtoC (1 / 2) * (psi x - gate1 t m psi x))).
      * apply cser_plus; apply cser_scal_r, scalar_series.
      * rewrite Ropp_involutive. unfold cis. rewrite cos_neg, sin_neg. generalize (psi x) (gate1 t m psi x). intros [a b] [c d]. apply Ceq; simpl; field.
  - apply (cser_ext (fun k => (ifact k * cpow (- Ci * RtoC 0) k) * psi x)); [intros k; rewrite power_cmat by assumption; rewrite F; unfold ifact; ring|].
    pose proof (cser_scal_r (psi x) _ _ (scalar_series 0)) as Q. replace (cis (- 0) * psi x) with (psi x) in Q by (unfold cis; rewrite Ropp_0, cos_0, sin_0; change ((1, 0)%R) with (RtoC 1); ring). exact Q.
Qed.
(** Every rotation and controlled rotation by an angle is the evolution under its declared generator for half the angle, MCPHASE too. *)
Theorem C91_generates : forall rho b g, operation b -> generator b = Some g -> forall e,
  (exists r q, r <> RPhase /\ b = BRot r q e) \/ (exists cs r q, b = BPCtrl cs (BRot r q e)) -> evolves (den rho g) (ang rho e / 2) (den rho b).
Proof.
  intros rho b g W G e F.
  assert (R : forall r p q cs, ~ In q cs -> (forall s phi x, gate1 q (rot_mat r s) phi x = RtoC (cos (s / 2)) * phi x - Ci * RtoC (sin (s / 2)) * gate1 q (prim_mat p) phi x) ->
    seqop (gate1 q (prim_mat p)) (gate1 q (prim_mat p)) = idop -> evolves (cmat 0 cs q (prim_mat p)) (ang rho e / 2) (ctrlop cs (gate1 q (rot_mat r (ang rho e))))).
  { intros r p q cs T H I. pose proof (evolves_cmat (ang rho e / 2) cs q (prim_mat p) T) as Ev. replace (ctrlop cs (gate1 q (rot_mat r (ang rho e)))) with (fun psi (x : asg) => if forallb x cs then RtoC (cos (ang rho e / 2)) * psi x - Ci * RtoC (sin (ang rho e / 2)) * gate1 q (prim_mat p) psi x else psi x).
    - apply Ev. intros phi y. exact (f_equal (fun A : Op => A phi y) I).
    - extensionality psi. extensionality x. unfold ctrlop. rewrite H. reflexivity. }
  assert (HX : forall q s phi x, gate1 q (rot_mat RX_ s) phi x = RtoC (cos (s / 2)) * phi x - Ci * RtoC (sin (s / 2)) * gate1 q (prim_mat PX) phi x).
  { intros q s phi x. rewrite !gate1_eq. cbn [rot_mat prim_mat]. destruct (x q) eqn:X; cbn [mat2]; rewrite (upd_set x q _ X); ring. }
  assert (HY : forall q s phi x, gate1 q (rot_mat RY_ s) phi x = RtoC (cos (s / 2)) * phi x - Ci * RtoC (sin (s / 2)) * gate1 q (prim_mat PY) phi x).
  { intros q s phi x. rewrite !gate1_eq. cbn [rot_mat prim_mat]. destruct (x q) eqn:X; cbn [mat2]; rewrite (upd_set x q _ X); apply Ceq; simpl; ring. }
  assert (HZ : forall q s phi x, gate1 q (rot_mat RZ_ s) phi x = RtoC (cos (s / 2)) * phi x - Ci * RtoC (sin (s / 2)) * gate1 q (prim_mat PZ) phi x).
  { intros q s phi x. rewrite !gate1_eq. cbn [rot_mat prim_mat]. unfold cis. rewrite cos_neg, sin_neg. destruct (x q) eqn:X; cbn [mat2]; rewrite (upd_set x q _ X); apply Ceq; simpl; ring. }
  assert (In3 : forall p q, In p [PX; PY; PZ] -> seqop (gate1 q (prim_mat p)) (gate1 q (prim_mat p)) = idop) by (intros p q [<-|[<-|[<-|[]]]]; apply L_Gates.prim_invol; unfold L_Gates.involutive; tauto).
  assert (C0 : forall q p, gate1 q (prim_mat p) = cmat 0 [] q (prim_mat p)) by reflexivity. assert (C1 : forall U, U = ctrlop [] U) by reflexivity.
  destruct F as [(r & q & Nr & ->)|(cs & r & q & ->)].
  - destruct r; [| | |contradiction]; cbn [generator] in G; some_inj G; cbn [den]; rewrite C0; rewrite (C1 (gate1 q (rot_mat _ _))); apply R; try (intros []; fail); try assumption; try apply HX; try apply HY; try apply HZ; apply In3; cbn; tauto.
  - cbn [operation] in W. destruct W as [W1 W2]. destruct r; cbn [generator] in G; some_inj G.
    1: rewrite (den_when rho cs q (BPrim PX q) (prim_mat PX) W2 eq_refl). 2: rewrite (den_when rho cs q (BPrim PY q) (prim_mat PY) W2 eq_refl). 3: rewrite (den_when rho cs q (BPrim PZ q) (prim_mat PZ) W2 eq_refl).
    1-3: apply R; [exact W2|first [apply HX|apply HY|apply HZ]|apply In3; cbn; tauto].
    assert (D : den rho (when cs (op_sub (BPrim PZ q) (BPrim PI_ q))) = rdiag (fun x => if forallb x cs then if x q then -2 else 0 else 0)%R).
    { erewrite den_when; [|exact W2|rewrite C05_sub; cbn [den]; rewrite gate1_scale, gate1_add; reflexivity]. extensionality psi. extensionality x. unfold cmat, rdiag. destruct (forallb x cs); [|ring]. rewrite gate1_eq. unfold madd, mscale. cbn [prim_mat].
      destruct (x q) eqn:X; cbn [mat2]; rewrite (upd_set x q _ X); apply Ceq; simpl; ring. }
    rewrite D. replace (den rho (BPCtrl cs (BRot RPhase q e))) with (diag (fun x => - (ang rho e / 2 * (if forallb x cs then if x q then -2 else 0 else 0)))%R); [apply evolves_rdiag|].
    extensionality psi. extensionality x. cbn [den]. unfold diag, ctrlop. destruct (forallb x cs).
    + rewrite gate1_eq. cbn [rot_mat]. destruct (x q) eqn:X; cbn [mat2]; rewrite (upd_set x q _ X).
      * replace (- (ang rho e / 2 * -2))%R with (ang rho e) by field. ring.
      * rewrite Rmult_0_r, Ropp_0. unfold cis. rewrite cos_0, sin_0. change ((1, 0)%R) with (RtoC 1). ring.
    + rewrite Rmult_0_r, Ropp_0. unfold cis. rewrite cos_0, sin_0. change ((1, 0)%R) with (RtoC 1). ring.
Qed.
Lemma one_minus_z_diag rho q : den rho (op_sub (BPrim PI_ q) (BPrim PZ q)) = rdiag (fun x => if x q then 2 else 0)%R.
Proof.
  rewrite C05_sub. cbn [den]. rewrite gate1_scale, gate1_add. extensionality psi. extensionality x. unfold rdiag. rewrite gate1_eq. unfold madd, mscale. cbn [prim_mat].
  destruct (x q) eqn:X; cbn [mat2]; rewrite (upd_set x q _ X); apply Ceq; simpl; ring.
Qed.
(** The declared generator of PHASE generates the phase by the opposite angle. *)
Theorem C91_phase_refuted : forall rho q e, exists g, generator (BRot RPhase q e) = Some g /\ evolves (den rho g) (ang rho e / 2) (den rho (BRot RPhase q (ENeg e))) /\
  (sin (ang rho e) <> 0%R -> forall E, evolves (den rho g) (ang rho e / 2) E -> E <> den rho (BRot RPhase q e)).
Proof.
  intros rho q e. exists (op_sub (BPrim PI_ q) (BPrim PZ q)). split; [reflexivity|]. rewrite one_minus_z_diag.
  assert (P : forall e', den rho (BRot RPhase q e') = diag (fun x => if x q then ang rho e' else 0)%R).
  { intros e'. extensionality psi. extensionality x. cbn [den]. unfold diag. rewrite gate1_eq. cbn [rot_mat]. destruct (x q) eqn:X; cbn [mat2]; rewrite (upd_set x q _ X); [ring|]. unfold cis. rewrite cos_0, sin_0. change ((1, 0)%R) with (RtoC 1). ring. }
  assert (A : ang rho (ENeg e) = (- ang rho e)%R) by reflexivity.
  assert (V : evolves (rdiag (fun x => if x q then 2 else 0)%R) (ang rho e / 2) (den rho (BRot RPhase q (ENeg e)))).
  { rewrite P, A. replace (fun x : asg => if x q then (- ang rho e)%R else 0%R) with (fun x : asg => (- (ang rho e / 2 * (if x q then 2 else 0)))%R) by (extensionality x; destruct (x q); field). apply evolves_rdiag. }
  split; [exact V|]. intros N E HE Q. subst E. pose proof (evolves_unique _ _ _ _ V HE) as Q. rewrite !P, A in Q.
  apply (f_equal (fun O : Op => snd (O (fun _ => RtoC 1) (fun _ => true)))) in Q. unfold diag, cis in Q. rewrite !Cmult_1_r in Q. cbn [snd] in Q. rewrite sin_neg in Q. lra.
Qed.
(** The declared generator of SWAP is not Hermitian, and SWAP is no evolution under it. *)
Theorem C91_swap_refuted : forall rho a b, a <> b -> exists g, generator (BSwap a b) = Some g /\
  (exists r k, length r = 2%nat /\ length k = 2%nat /\ matof [a; b] (den rho g) r k <> Cconj (matof [a; b] (den rho g) k r)) /\
  forall t E, evolves (den rho g) t E -> E <> den rho (BSwap a b).
Proof.
  intros rho a b N. exists (swap_generator a b). split; [reflexivity|]. split.
  - exists [false; true], [true; false]. split; [reflexivity|]. split; [reflexivity|]. unfold matof. rewrite !swap_generator_eq by exact N.
    assert (Xa : forall u v, upds zeros [a; b] [u; v] a = u) by (intros u v; cbn [upds]; rewrite ?upd_same, ?(upd_other _ b v a), ?upd_same by congruence; reflexivity).
    assert (Xb : forall u v, upds zeros [a; b] [u; v] b = v) by (intros u v; cbn [upds]; rewrite ?(upd_other _ a u b), ?upd_same by congruence; reflexivity).
    rewrite !Xa, !Xb. unfold ket. cbn [map]. rewrite !Xa, !Xb, upd_same, upd_other, upd_same by exact N. cbn. intros Q. apply (f_equal fst) in Q. simpl in Q. lra.
  - intros t E HE Q. subst E. set (psi := fun x : asg => if x a then RtoC 0 else if x b then RtoC 1 else RtoC 0).
    assert (K : forall x, den rho (swap_generator a b) psi x = RtoC 0 * psi x).
    { intros x. rewrite swap_generator_eq by exact N. unfold psi. rewrite upd_other, upd_same by exact N. destruct (x a), (x b); apply Ceq; simpl; ring. }
    pose proof (evolves_eigen _ _ _ psi 0 (den_linear rho _) K HE (upd (fun _ => true) a false)) as Q. cbn [den] in Q. unfold swapop, psi in Q. rewrite ?upd_same, ?(upd_other _ a _ b), ?(upd_other _ b _ a), ?upd_same in Q by congruence.
    rewrite Rmult_0_r, Ropp_0 in Q. unfold cis in Q. rewrite cos_0, sin_0 in Q. apply (f_equal fst) in Q. simpl in Q. lra.
Qed.
(** The declared eigenvalues 1 and -1 of the generator of CSWAP leave out the eigenvalue 0 of its declared generator. *)
Theorem C91_cswap_refuted : forall eigvals rho c a d, c <> a -> c <> d -> a <> d -> exists g l,
  generator (BCSwap c a d) = Some g /\ eigenvalues_generator eigvals (BCSwap c a d) = Spectrum l /\ eigenvalue (den rho g) 0 /\ ~ In (RtoC 0) (map RtoC l).
Proof.
  intros eigvals rho c a d N1 N2 N3. exists (cswap_generator c a d). eexists. split; [reflexivity|]. split; [reflexivity|]. split.
  - set (V := fun psi : St => forall x : asg, x a = true -> psi x = 0).
    assert (VG : forall q m psi, q <> a -> V psi -> V (gate1 q m psi)) by (intros q m psi Nq H x X; rewrite gate1_eq, !H by (rewrite upd_other by congruence; exact X); ring).
    assert (Kill : forall (m : bool -> bool -> C) psi, (forall v, m v false = 0) -> V psi -> gate1 a m psi = fun _ => RtoC 0) by (intros m psi Hm H; extensionality x; rewrite gate1_eq, Hm, (H (upd x a true)) by apply upd_same; ring).
    assert (Zero : forall q m, gate1 q m (fun _ => RtoC 0) = fun _ => RtoC 0) by (intros q m; extensionality x; rewrite gate1_eq; ring).
    set (psi := fun x : asg => if x a then RtoC 0 else if x c then RtoC 0 else RtoC 1). assert (Vp : V psi) by (intros x X; unfold psi; rewrite X; reflexivity).
    assert (Nc : gate1 c (prim_mat (PN true)) psi = fun _ => RtoC 0) by (extensionality x; rewrite gate1_eq; unfold psi; rewrite !upd_same, !(upd_other _ c _ a) by congruence; cbn [prim_mat]; destruct (x c), (x a); cbn [mat2]; ring).
    assert (G : forall rho q m k, den rho (op_neg (BPrim m q)) = gate1 q (mscale (- (1)) (prim_mat m)) /\ scaleop k (gate1 q (prim_mat m)) = gate1 q (mscale k (prim_mat m))) by (intros rho' q m k; split; [rewrite C05_neg; apply gate1_scale|apply gate1_scale]).
    assert (A12 : den rho (times (1 / 2) (op_add (BChain [BPrim PX a; BPrim PZ a]) (BPrim PX a))) = gate1 a (mat2 0 1 0 0)).
    { rewrite den_times, C05_add. cbn [den fold_right]. rewrite seqop_id_r, L_Gates.gate1_gate1, gate1_add, gate1_scale. apply L_Gates.gate1_ext. intros [] []; unfold mscale, madd, L_Gates.mmul; cbn [prim_mat mat2]; try ring. apply Ceq; simpl; field. }
    assert (A21 : den rho (times (1 / 2) (op_add (BChain [BPrim PZ d; BPrim PX d]) (BPrim PX d))) = gate1 d (mat2 0 0 1 0)).
    { rewrite den_times, C05_add. cbn [den fold_right]. rewrite seqop_id_r, L_Gates.gate1_gate1, gate1_add, gate1_scale. apply L_Gates.gate1_ext. intros [] []; unfold mscale, madd, L_Gates.mmul; cbn [prim_mat mat2]; try ring. apply Ceq; simpl; field. }
    assert (K : forall u v w phi, den rho (BKron [u; v; w]) phi = den rho w (den rho v (den rho u phi))) by reflexivity.
    exists psi. split; [exists zeros; apply C1_nz|]. intros x. unfold cswap_generator. cbv zeta. rewrite !C05_add. unfold addop. rewrite !K, !(den_times rho (-1)), !(proj1 (G rho _ _ 0)), A12, A21. rewrite !gate1_scale. cbn [den].
    rewrite <- (gate1_scale c (- (1)) (prim_mat (PN true))). unfold scaleop at 1. rewrite Nc. replace (fun x0 : asg => - (1) * RtoC 0) with (fun _ : asg => RtoC 0) by (extensionality y; ring). rewrite !Zero.
    assert (Vc : V (gate1 c (mscale (- (1)) (prim_mat (PN false))) psi)) by (apply VG; assumption).
    rewrite (Kill (mscale (- (1)) (prim_mat (PN true)))); [|intros []; unfold mscale; cbn; ring|apply VG; [congruence|exact Vc]].
    rewrite (Kill (mscale (RtoC (-1)) (mscale (- (1)) (prim_mat (PN true))))); [|intros []; unfold mscale; cbn; ring|exact Vc].
    rewrite (Kill (mat2 0 1 0 0)); [|intros []; reflexivity|exact Vc]. rewrite (Kill (mat2 0 1 0 0)); [|intros []; reflexivity|apply VG; [congruence|exact Vc]]. rewrite !Zero. ring.
  - cbn [map In]. assert (Z1 : RtoC 1 <> 0) by apply C1_nz. assert (Z2 : RtoC (-1) <> 0) by (intros Q; injection Q; lra). tauto.
Qed.
(** [eigenvalues] refuses MCZ, CZ and U; [eigenvalues_generator] refuses MCZ and CZ. *)
Theorem C91_refused : forall eigvals rho cs t q x y z, eigenvalues eigvals rho (BCtrl cs (BPrim PZ t)) = None /\ eigenvalues_generator eigvals (BCtrl cs (BPrim PZ t)) = Crash /\
  eigenvalues eigvals rho (BU q x y z) = None.
Proof. intros. split; [reflexivity|]. split; reflexivity. Qed.

(** The hypotheses hold for a doubly controlled rotation about Y. *)
Example C91_instance : let b := BPCtrl [0; 2]%nat (BRot RY_ 1 (EVar "t")) in operation b /\ generator b = Some (BKron [BPrim (PN true) 0; BPrim (PN true) 2; BPrim PY 1]) /\
  (exists l, eigenvalues (fun _ => []) (fun _ => 0%R) b = Some l /\ length l = 8%nat) /\ exists l, eigenvalues_generator (fun _ => []) b = Spectrum l /\ length l = 8%nat.
Proof. cbv zeta. split; [cbn; split; [discriminate|intuition discriminate]|]. split; [reflexivity|]. split; eexists; split; reflexivity. Qed.

Print Assumptions C91_eigenvalues.
Print Assumptions C91_generator.
Print Assumptions C91_generator_refuted.
Print Assumptions C91_scale.
Print Assumptions C91_scale_refuted.
Print Assumptions C91_evolution.
Print Assumptions C91_generates.
Print Assumptions C91_phase_refuted.
Print Assumptions C91_swap_refuted.
Print Assumptions C91_cswap_refuted.
Print Assumptions C91_refused.
