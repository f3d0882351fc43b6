(** Distances between operators on a register. *)
From Coq Require Import String Reals List Arith Bool Lia Lra FunctionalExtensionality Permutation.
From Coquelicot Require Import Coquelicot.
From Coq Require Import List.
From Verif Require Import S_Ops L_Ops M_QubitSupport M_Block S_Den L_Den L_Loc L_Adj L_Gates P_Dagger S_PSR S_State L_Inner S_Near P_PSR P_Qft.
Import ListNotations.
Open Scope R_scope.

Definition sqs (l : list C) : R := fold_right (fun a s => Cmod a ^ 2 + s) 0 l.
Lemma sqs_nonneg l : 0 <= sqs l.
Proof. induction l as [|a l IH]; [cbn; lra|]. cbn [sqs fold_right]. fold (sqs l). pose proof (pow2_ge_0 (Cmod a)). lra. Qed.
Lemma Cmod_sq (a : C) : Cmod a ^ 2 = fst a ^ 2 + snd a ^ 2.
Proof. unfold Cmod. rewrite pow2_sqrt; [reflexivity|]. pose proof (pow2_ge_0 (fst a)). pose proof (pow2_ge_0 (snd a)). lra. Qed.
Lemma norm_sqs n psi : norm n psi = sqrt (sqs (map (amps n psi) (bits n))).
Proof.
  unfold norm. f_equal. unfold inner. induction (bits n) as [|r l IH]; [reflexivity|]. cbn [csum map sqs fold_right]. rewrite Cmod_sq. unfold sqs in IH. rewrite <- IH. destruct (amps n psi r) as [a b]. simpl. ring.
Qed.
Lemma norm_nonneg n psi : 0 <= norm n psi.
Proof. apply sqrt_pos. Qed.
Lemma norm_ext n f g : (forall r, In r (bits n) -> Cmod (amps n f r) = Cmod (amps n g r)) -> norm n f = norm n g.
Proof.
  intros H. rewrite !norm_sqs. f_equal. induction (bits n) as [|r l IH]; [reflexivity|]. cbn [map sqs fold_right]. rewrite H by (left; reflexivity). f_equal. apply IH. intros; apply H; right; assumption.
Qed.
(** The triangle inequality. *)
Lemma sqrt_cs a b c d : 0 <= a -> 0 <= b -> 0 <= c -> 0 <= d -> sqrt ((a + b) ^ 2 + (c + d) ^ 2) <= sqrt (a ^ 2 + c ^ 2) + sqrt (b ^ 2 + d ^ 2).
Proof.
  intros Ha Hb Hc Hd. pose proof (pow2_ge_0 a). pose proof (pow2_ge_0 b). pose proof (pow2_ge_0 c). pose proof (pow2_ge_0 d).
  set (X := sqrt (a ^ 2 + c ^ 2)). set (Y := sqrt (b ^ 2 + d ^ 2)).
  assert (X0 : 0 <= X) by apply sqrt_pos. assert (Y0 : 0 <= Y) by apply sqrt_pos. assert (X2 : X ^ 2 = a ^ 2 + c ^ 2) by (apply pow2_sqrt; lra). assert (Y2 : Y ^ 2 = b ^ 2 + d ^ 2) by (apply pow2_sqrt; lra).
  assert (CS : a * b + c * d <= X * Y).
  { apply Rsqr_incr_0_var; [|nra]. unfold Rsqr. replace (X * Y * (X * Y)) with (X ^ 2 * Y ^ 2) by ring. rewrite X2, Y2. pose proof (pow2_ge_0 (a * d - b * c)). nra. }
  rewrite <- (sqrt_pow2 (X + Y)) by lra. apply sqrt_le_1; [nra|nra|]. replace ((X + Y) ^ 2) with (X ^ 2 + Y ^ 2 + 2 * (X * Y)) by ring. rewrite X2, Y2. nra.
Qed.
Lemma sqs_triangle (f g : list bool -> C) l : sqrt (sqs (map (fun r => f r + g r)%C l)) <= sqrt (sqs (map f l)) + sqrt (sqs (map g l)).
Proof.
  induction l as [|r l IH]; cbn [map sqs fold_right]; [rewrite sqrt_0; lra|]. fold (sqs (map f l)) (sqs (map g l)) (sqs (map (fun r => f r + g r)%C l)).
  pose proof (sqs_nonneg (map f l)) as Sf. pose proof (sqs_nonneg (map g l)) as Sg. pose proof (sqs_nonneg (map (fun r => f r + g r)%C l)) as Ss.
  eapply Rle_trans; [|eapply Rle_trans; [apply (sqrt_cs (Cmod (f r)) (Cmod (g r)) (sqrt (sqs (map f l))) (sqrt (sqs (map g l)))); try apply Cmod_ge_0; apply sqrt_pos|]].
  - apply sqrt_le_1_alt. apply Rplus_le_compat.
    + pose proof (Cmod_triangle (f r) (g r)). pose proof (Cmod_ge_0 (f r + g r)%C). apply pow_incr. lra.
    + rewrite <- (pow2_sqrt (sqs (map (fun r0 => f r0 + g r0)%C l))) by exact Ss. apply pow_incr. split; [apply sqrt_pos|exact IH].
  - rewrite !pow2_sqrt by assumption. lra.
Qed.
Lemma norm_triangle n f g : norm n (fun x => f x + g x)%C <= norm n f + norm n g.
Proof. rewrite !norm_sqs. apply (sqs_triangle (amps n f) (amps n g)). Qed.
Lemma norm_amp n psi r : In r (bits n) -> Cmod (amps n psi r) <= norm n psi.
Proof.
  intros I. rewrite norm_sqs. rewrite <- (sqrt_pow2 (Cmod (amps n psi r))) by apply Cmod_ge_0. apply sqrt_le_1_alt. induction (bits n) as [|a l IH]; [contradiction|]. cbn [map sqs fold_right].
  fold (sqs (map (amps n psi) l)). pose proof (sqs_nonneg (map (amps n psi) l)). pose proof (pow2_ge_0 (Cmod (amps n psi a))). destruct I as [->|I]; [lra|]. specialize (IH I). lra.
Qed.
Lemma norm_le_scal n k f g : 0 <= k -> (forall r, In r (bits n) -> Cmod (amps n f r) <= k * Cmod (amps n g r)) -> norm n f <= k * norm n g.
Proof.
  intros Hk H. rewrite !norm_sqs. rewrite <- (sqrt_pow2 k Hk). rewrite <- sqrt_mult_alt by apply pow2_ge_0. apply sqrt_le_1_alt. induction (bits n) as [|r l IH]; [cbn; lra|]. cbn [map sqs fold_right].
  fold (sqs (map (amps n f) l)) (sqs (map (amps n g) l)). assert (sqs (map (amps n f) l) <= k ^ 2 * sqs (map (amps n g) l)) by (apply IH; intros; apply H; right; assumption).
  assert (Cmod (amps n f r) ^ 2 <= (k * Cmod (amps n g r)) ^ 2) by (apply pow_incr; split; [apply Cmod_ge_0|apply H; left; reflexivity]). rewrite Rpow_mult_distr in H1. lra.
Qed.

(** [A] and [B] are linear, keep norms, and differ by at most [e]. *)
Definition iso (n : nat) (A : Op) : Prop := linear A /\ forall psi, norm n (A psi) = norm n psi.
Definition close (n : nat) (e : R) (A B : Op) : Prop := iso n A /\ iso n B /\ near n e A B.
Lemma iso_seq n A B : iso n A -> iso n B -> iso n (seqop A B).
Proof. intros [L1 N1] [L2 N2]. split; [apply linear_seq; assumption|]. intros psi. unfold seqop. rewrite N2. apply N1. Qed.
Lemma iso_id n : iso n idop.
Proof. split; [apply linear_id|reflexivity]. Qed.
Lemma iso_unitary n A : unitary_on n A -> iso n A.
Proof. intros U. split; [exact (loc_linear _ _ (proj1 U))|]. intros psi. unfold norm. rewrite (unitary_inner n A psi psi U). reflexivity. Qed.
Lemma norm_zero n : norm n (fun _ => RtoC 0) = 0.
Proof. unfold norm. rewrite inner_zero_r. apply sqrt_0. Qed.
Lemma close_refl n A : iso n A -> close n 0 A A.
Proof. intros H. split; [exact H|]. split; [exact H|]. intros psi. replace (fun x => (A psi x - A psi x)%C) with (fun _ : asg => RtoC 0) by (extensionality x; ring). rewrite norm_zero. lra. Qed.
Lemma close_seq n e1 e2 A1 A2 B1 B2 : 0 <= e2 -> close n e1 A1 B1 -> close n e2 A2 B2 -> close n (e1 + e2) (seqop A1 A2) (seqop B1 B2).
Proof.
  intros H0 (IA1 & IB1 & N1) (IA2 & IB2 & N2). split; [apply iso_seq; assumption|]. split; [apply iso_seq; assumption|]. intros psi. unfold seqop.
  replace (fun x => (A2 (A1 psi) x - B2 (B1 psi) x)%C) with (fun x => (A2 (fun y => A1 psi y - B1 psi y) x + (A2 (B1 psi) x - B2 (B1 psi) x))%C).
  - eapply Rle_trans; [apply (norm_triangle n (A2 (fun y => (A1 psi y - B1 psi y)%C)) (fun x => (A2 (B1 psi) x - B2 (B1 psi) x)%C))|].
    rewrite (proj2 IA2). pose proof (N1 psi). pose proof (N2 (B1 psi)). rewrite (proj2 IB1) in H1. lra.
  - extensionality x. destruct IA2 as [[LA LS] _]. pose proof (f_equal (fun f : St => f x) (LA (A1 psi) (fun y => (RtoC (-1) * B1 psi y)%C))) as E. pose proof (f_equal (fun f : St => f x) (LS (RtoC (-1)) (B1 psi))) as E'. cbn beta in E, E'.
    replace (fun y => (A1 psi y - B1 psi y)%C) with (fun y => (A1 psi y + RtoC (-1) * B1 psi y)%C) by (extensionality y; apply Ceq; cbn; ring).
    rewrite E, E'. apply Ceq; cbn; ring.
Qed.
Lemma close_seqs {T} n e (A B : T -> Op) l : 0 <= e -> (forall a, In a l -> close n e (A a) (B a)) -> close n (INR (length l) * e) (seqs (map A l)) (seqs (map B l)).
Proof.
  intros He. induction l as [|a l IH]; intros H.
  - cbn [map seqs length INR]. rewrite Rmult_0_l. apply close_refl, iso_id.
  - cbn [map seqs length]. rewrite S_INR. replace ((INR (length l) + 1) * e) with (e + INR (length l) * e) by ring. apply close_seq; [|apply H; left; reflexivity|apply IH; intros; apply H; right; assumption].
    pose proof (pos_INR (length l)). nra.
Qed.
Lemma iso_inverse n A A' : linear A' -> seqop A' A = idop -> iso n A -> iso n A'.
Proof. intros L E [_ N]. split; [exact L|]. intros psi. rewrite <- (N (A' psi)). change (A (A' psi)) with (seqop A' A psi). rewrite E. reflexivity. Qed.
Lemma close_inverse n e A A' B B' : 0 <= e -> linear A' -> linear B' -> seqop A' A = idop -> seqop A A' = idop -> seqop B' B = idop -> close n e A B -> close n e A' B'.
Proof.
  intros He LA LB E1 E2 E3 (IA & IB & N). pose proof (iso_inverse n A A' LA E1 IA) as IA'. pose proof (iso_inverse n B B' LB E3 IB) as IB'. split; [exact IA'|]. split; [exact IB'|]. intros psi.
  assert (D : (fun x => (A' psi x - B' psi x)%C) = A' (fun x => (RtoC (-1) * (A (B' psi) x - B (B' psi) x))%C)).
  { assert (Q : (fun x => (RtoC (-1) * (A (B' psi) x - B (B' psi) x))%C) = (fun x => (psi x + RtoC (-1) * A (B' psi) x)%C)).
    { extensionality x. pose proof (f_equal (fun U : Op => U psi x) E3) as Z. unfold seqop, idop in Z. rewrite Z. apply Ceq; cbn; ring. }
    rewrite Q. destruct LA as [LA LS]. rewrite LA, LS. extensionality x. pose proof (f_equal (fun U : Op => U (B' psi) x) E2) as Z. unfold seqop, idop in Z. rewrite Z. apply Ceq; cbn; ring. }
  rewrite D, (proj2 IA').
  replace (norm n (fun x => (RtoC (-1) * (A (B' psi) x - B (B' psi) x))%C)) with (norm n (fun x => (A (B' psi) x - B (B' psi) x)%C)).
  - eapply Rle_trans; [apply N|]. rewrite (proj2 IB'). lra.
  - apply norm_ext. intros r _. unfold amps. rewrite Cmod_mult, Cmod_R. replace (Rabs (-1)) with 1; [ring|]. replace (-1) with (- (1)) by ring. rewrite Rabs_Ropp, Rabs_R1. reflexivity.
Qed.
Lemma Cmod_cis t : Cmod (cis t) = 1.
Proof. unfold Cmod, cis. cbn [fst snd]. replace (cos t ^ 2 + sin t ^ 2) with 1; [apply sqrt_1|]. pose proof (sin2_cos2 t). unfold Rsqr in H. simpl. lra. Qed.
Lemma sin_abs y : Rabs (sin y) <= Rabs y.
Proof.
  assert (P : forall y, 0 <= y -> Rabs (sin y) <= y).
  { intros z Hz. destruct (Req_dec z 0) as [->|Nz]; [rewrite sin_0, Rabs_R0; lra|]. apply Rabs_le. split; [|left; apply sin_lt_x; lra].
    destruct (Rle_dec 1 z) as [G|G]; [pose proof (SIN_bound z); lra|]. assert (0 <= sin z); [|lra]. apply sin_ge_0; [lra|]. pose proof PI2_1. lra. }
  destruct (Rle_dec 0 y) as [G|G]; [rewrite (Rabs_pos_eq y) by exact G; apply P; exact G|]. rewrite <- (Rabs_Ropp (sin y)), <- (Rabs_Ropp y), <- sin_neg. rewrite (Rabs_pos_eq (- y)) by lra. apply P. lra.
Qed.
Lemma cis_close t : Cmod (cis t - 1)%C <= Rabs t.
Proof.
  unfold Cmod, cis. cbn [fst snd Cminus Cplus Copp RtoC]. rewrite <- (sqrt_pow2 (Rabs t)) by apply Rabs_pos. apply sqrt_le_1_alt. rewrite pow2_abs.
  replace ((cos t + - (1)) ^ 2 + (sin t + - 0) ^ 2) with (4 * sin (t / 2) ^ 2).
  - pose proof (sin_abs (t / 2)) as S. assert (sin (t / 2) ^ 2 <= (t / 2) ^ 2); [|replace ((t / 2) ^ 2) with (t ^ 2 / 4) in H by field; lra]. rewrite <- (pow2_abs (sin (t / 2))), <- (pow2_abs (t / 2)). apply pow_incr. split; [apply Rabs_pos|exact S].
  - replace t with (2 * (t / 2)) at 2 3 by field. rewrite cos_2a, sin_2a. pose proof (sin2_cos2 (t / 2)) as S. unfold Rsqr in S. set (c := cos (t / 2)) in *. set (s := sin (t / 2)) in *. clearbody c s. assert (E : c * c = 1 - s * s) by lra.
    replace ((c * c - s * s + - (1)) ^ 2 + (2 * s * c + - 0) ^ 2) with ((c * c - s * s + - (1)) ^ 2 + 4 * (s * s) * (c * c)) by ring. rewrite E. ring.
Qed.
Lemma diag_iso n f : iso n (diag f).
Proof.
  split.
  - split.
    + intros a b. extensionality x. unfold diag. ring.
    + intros k a. extensionality x. unfold diag. ring.
  - intros psi. apply norm_ext. intros r _. unfold amps, diag. rewrite Cmod_mult, Cmod_cis. ring.
Qed.
Lemma diag_close n e f g : 0 <= e -> (forall x, Rabs (f x - g x) <= e) -> close n e (diag f) (diag g).
Proof.
  intros He H. split; [apply diag_iso|]. split; [apply diag_iso|]. intros psi. apply norm_le_scal; [exact He|]. intros r _. unfold amps, diag. set (x := upds zeros (seq 0 n) r).
  replace (cis (f x) * psi x - cis (g x) * psi x)%C with ((cis (f x - g x) - 1) * (cis (g x) * psi x))%C.
  - rewrite !Cmod_mult, Cmod_cis, Rmult_1_l. apply Rmult_le_compat_r; [apply Cmod_ge_0|]. eapply Rle_trans; [apply cis_close|apply H].
  - transitivity (cis (f x - g x) * cis (g x) * psi x - cis (g x) * psi x)%C; [ring|]. rewrite cis_add. replace (f x - g x + g x) with (f x) by ring. ring.
Qed.
