(** Lemmas for C40: states of an ancilla and a register. *)
From Coq Require Import String Reals List Arith Bool Lia Lra FunctionalExtensionality Permutation.
From Coquelicot Require Import Coquelicot.
From Coq Require Import List.
From Verif Require Import S_Ops L_Ops M_QubitSupport L_QubitSupport M_Block S_Den L_Den L_Loc L_Adj L_Gates M_BlockOps L_Support L_Exp L_Tensor M_Tensor M_Transpile S_Transpile L_Transpile P_Invert
  P_Operators P_Dagger M_PSR S_PSR P_PSR S_State L_Inner M_Measure P_Measure P_Tomography M_States P_States M_Overlap.
Import ListNotations.
Open Scope R_scope.
Open Scope C_scope.

Definition zero_state (n : nat) : St := ket (seq 0 n) (repeat false n).
Definition wf (n : nat) (psi : St) : vec := map (amps n psi) (bits n).

Lemma two_pow_pos n : (0 < 2 ^ n)%nat.
Proof. induction n; simpl; lia. Qed.
Lemma wf_length n psi : length (wf n psi) = (2 ^ n)%nat.
Proof. unfold wf. rewrite map_length. pose proof (f_equal (@length nat) (map_bits_seq n)) as H. rewrite map_length, seq_length in H. exact H. Qed.
Lemma nth_wf n psi r : length r = n -> nth (bits_to_nat r) (wf n psi) (RtoC 0) = amps n psi r.
Proof.
  intros Hr. unfold wf. assert (H : nth (bits_to_nat r) (bits n) [] = r).
  { apply in_bits_iff in Hr as Hi. destruct (In_nth _ _ [] Hi) as (k & Hk & E).
    assert (K : nth k (map bits_to_nat (bits n)) 0%nat = bits_to_nat r).
    { change 0%nat with (bits_to_nat []). rewrite map_nth, E. reflexivity. }
    rewrite map_bits_seq, seq_nth in K; [|rewrite <- (wf_length n psi); unfold wf; rewrite map_length; exact Hk]. simpl in K. subst k. exact E. }
  rewrite (nth_indep _ _ (amps n psi [])), map_nth, H; [reflexivity|]. fold (wf n psi). rewrite wf_length, <- Hr. apply bits_to_nat_lt.
Qed.
Lemma meas_bits m a r b s : length r = m -> length s = m ->
  meas_op (S m) (bits_to_nat (a :: r)) (bits_to_nat (b :: s)) = if (negb a && negb b && eqbits r s)%bool then RtoC 1 else RtoC 0.
Proof.
  intros Hr Hs. unfold meas_op. replace (S m - 1)%nat with m by lia. cbn [bits_to_nat]. rewrite Hr, Hs.
  pose proof (bits_to_nat_lt r) as Lr. pose proof (bits_to_nat_lt s) as Ls. rewrite Hr in Lr. rewrite Hs in Ls. pose proof (two_pow_pos m).
  assert (D : forall c k, (k < 2 ^ m)%nat -> ((b2n c * 2 ^ m + k) / 2 ^ m)%nat = b2n c).
  { intros c k Hk. rewrite Nat.div_add_l by lia. rewrite Nat.div_small by exact Hk. lia. }
  assert (M : forall c k, (k < 2 ^ m)%nat -> ((b2n c * 2 ^ m + k) mod 2 ^ m)%nat = k).
  { intros c k Hk. rewrite Nat.add_comm, Nat.mod_add by lia. apply Nat.mod_small, Hk. }
  rewrite !D, !M by assumption. unfold proj_op, ident_op. rewrite eqb_bits by congruence. destruct a, b; simpl; destruct (eqbits r s); ring.
Qed.
Lemma csum_bits_S {A} (f : list bool -> A) (g : A -> C) m : csum (fun r => g (f r)) (bits (S m)) = csum (fun r => g (f (false :: r))) (bits m) + csum (fun r => g (f (true :: r))) (bits m).
Proof. cbn [bits]. rewrite csum_app, !csum_map. reflexivity. Qed.
Lemma meas_row m (v : nat -> C) a r : length r = m ->
  csum (fun j => meas_op (S m) (bits_to_nat (a :: r)) j * v j) (seq 0 (2 ^ S m)) = if a then RtoC 0 else v (bits_to_nat (false :: r)).
Proof.
  intros Hr. rewrite csum_seq_bits. destruct a.
  - rewrite (csum_ext _ (fun _ => RtoC 0)); [apply csum_zero|]. intros s Hs. apply bits_length in Hs. destruct s as [|b s]; [discriminate|]. injection Hs as Hs.
    rewrite meas_bits by assumption. simpl. ring.
  - rewrite (csum_single _ _ (false :: r)).
    + rewrite meas_bits by assumption. rewrite eqbits_refl. simpl. ring.
    + apply bits_nodup.
    + apply in_bits_iff. simpl. congruence.
    + intros s Hs Hn. apply bits_length in Hs. destruct s as [|b s]; [discriminate|]. injection Hs as Hs. rewrite meas_bits by assumption.
      destruct b; [simpl; ring|]. destruct (eqbits r s) eqn:E; [apply eqbits_true in E; congruence|]. simpl. ring.
Qed.
Lemma log2_wf n psi : Nat.log2 (length (wf n psi)) = n.
Proof. rewrite wf_length. apply Nat.log2_pow2. lia. Qed.
Lemma prob0_wf m psi : prob0 (wf (S m) psi) = rsum (map (fun r => prob (S m) psi (false :: r)) (bits m)).
Proof.
  unfold prob0. rewrite log2_wf, wf_length. rewrite csum_seq_bits. rewrite (csum_bits_S (fun r => r)).
  match goal with |- fst (?a + ?b) = _ => assert (Ea : a = csum (fun r => RtoC (prob (S m) psi (false :: r))) (bits m)); [|assert (Eb : b = RtoC 0)] end.
  - apply csum_ext. intros r Hr. apply bits_length in Hr. rewrite (meas_row m (fun j => nth j (wf (S m) psi) (RtoC 0)) false r Hr). rewrite nth_wf by (simpl; congruence). rewrite prob_inner. ring.
  - transitivity (csum (fun _ : list bool => RtoC 0) (bits m)); [|apply csum_zero]. apply csum_ext. intros r Hr. apply bits_length in Hr. rewrite (meas_row m (fun j => nth j (wf (S m) psi) (RtoC 0)) true r Hr). ring.
  - rewrite Ea, Eb, <- rsum_csum. simpl. ring.
Qed.
Lemma prob0_conj_wf m psi : prob0_conj (wf (S m) psi) = rsum (map (fun r => prob (S m) psi (false :: r)) (bits m)).
Proof.
  unfold prob0_conj. rewrite log2_wf, wf_length. rewrite csum_seq_bits. rewrite (csum_bits_S (fun r => r)).
  match goal with |- fst (?a + ?b) = _ => assert (Ea : a = csum (fun r => RtoC (prob (S m) psi (false :: r))) (bits m)); [|assert (Eb : b = RtoC 0)] end.
  - apply csum_ext. intros r Hr. apply bits_length in Hr. rewrite (meas_row m (fun j => Cconj (nth j (wf (S m) psi) (RtoC 0))) false r Hr). rewrite nth_wf by (simpl; congruence). rewrite prob_inner. ring.
  - transitivity (csum (fun _ : list bool => RtoC 0) (bits m)); [|apply csum_zero]. apply csum_ext. intros r Hr. apply bits_length in Hr. rewrite (meas_row m (fun j => Cconj (nth j (wf (S m) psi) (RtoC 0))) true r Hr). ring.
  - rewrite Ea, Eb, <- rsum_csum. simpl. ring.
Qed.

(** * Ancilla 0 and register 1..m *)
Definition reg (m : nat) (x : asg) : list bool := map x (seq 1 m).
Definition lift (m : nat) (G : list bool -> C) : St := fun x => G (reg m x).
Definition two (m : nat) (G0 G1 : list bool -> C) : St := fun x => if x 0%nat then G1 (reg m x) else G0 (reg m x).
Definition appv (m : nat) (M : bmat) (G : list bool -> C) : list bool -> C := fun r => csum (fun c => M r c * G c) (bits m).
Lemma reg_length m x : length (reg m x) = m.
Proof. unfold reg. rewrite map_length, seq_length. reflexivity. Qed.
Lemma two_ext m G0 G1 G0' G1' : (forall r, length r = m -> G0 r = G0' r) -> (forall r, length r = m -> G1 r = G1' r) -> two m G0 G1 = two m G0' G1'.
Proof. intros H0 H1. extensionality x. unfold two. destruct (x 0%nat); [apply H1|apply H0]; apply reg_length. Qed.
Lemma reg_upd m x b : reg m (upd x 0%nat b) = reg m x.
Proof. unfold reg. apply map_ext_in. intros q Hq. apply in_seq in Hq. apply upd_other. lia. Qed.
Lemma two_gate1 m M G0 G1 : gate1 0 M (two m G0 G1) =
  two m (fun r => M false false * G0 r + M false true * G1 r) (fun r => M true false * G0 r + M true true * G1 r).
Proof. extensionality x. rewrite gate1_eq. unfold two. rewrite !upd_same, !reg_upd. destruct (x 0%nat); reflexivity. Qed.
Definition on_reg (m : nat) (q : nat) : Prop := (1 <= q <= m)%nat.
Lemma two_loc m A G0 G1 H0 H1 : loc (on_reg m) A -> A (lift m G0) = lift m H0 -> A (lift m G1) = lift m H1 -> A (two m G0 G1) = two m H0 H1.
Proof.
  intros L E0 E1. assert (T : two m G0 G1 = fun x => if forallb x [0%nat] then lift m G1 x else lift m G0 x).
  { extensionality x. unfold two, lift. simpl. rewrite andb_true_r. reflexivity. }
  rewrite T, (loc_mix (on_reg m) A [0%nat] _ _ L).
  - extensionality x. rewrite E0, E1. unfold two, lift. simpl. rewrite andb_true_r. reflexivity.
  - intros q [<-|[]] [H _]. lia.
Qed.
Lemma two_ctrl m A G0 G1 H1 : loc (on_reg m) A -> A (lift m G1) = lift m H1 -> ctrlop [0%nat] A (two m G0 G1) = two m G0 H1.
Proof.
  intros L E1. assert (T : two m G0 G1 = fun x => if forallb x [0%nat] then lift m G1 x else lift m G0 x).
  { extensionality x. unfold two, lift. simpl. rewrite andb_true_r. reflexivity. }
  assert (K : A (two m G0 G1) = fun x => if forallb x [0%nat] then A (lift m G1) x else A (lift m G0) x).
  { rewrite T. apply (loc_mix (on_reg m) A [0%nat] _ _ L). intros q [<-|[]] [H _]. lia. }
  extensionality x. unfold ctrlop. rewrite K, E1. unfold two, lift. simpl. rewrite andb_true_r. destruct (x 0%nat); reflexivity.
Qed.
Lemma lift_gate m M G : gate (seq 1 m) M (lift m G) = lift m (appv m M G).
Proof.
  extensionality x. unfold gate, lift, appv. rewrite seq_length. fold (reg m x). apply csum_ext. intros c Hc. apply bits_length in Hc.
  unfold reg at 2. rewrite upds_map; [reflexivity|apply seq_NoDup|rewrite seq_length; exact Hc].
Qed.
Lemma seq1_on m q : In q (seq 1 m) -> on_reg m q.
Proof. intros H. apply in_seq in H. unfold on_reg. lia. Qed.
Lemma amps_two m G0 G1 b r : length r = m -> amps (S m) (two m G0 G1) (b :: r) = if b then G1 r else G0 r.
Proof.
  intros Hr. unfold amps, two. cbn [seq upds]. rewrite upd_same, reg_upd. unfold reg. rewrite upds_map; [reflexivity|apply seq_NoDup|rewrite seq_length; exact Hr].
Qed.
Definition delta0 (m : nat) (r : list bool) : C := if eqbits r (repeat false m) then RtoC 1 else RtoC 0.
Lemma zero_two m : zero_state (S m) = two m (delta0 m) (fun _ => RtoC 0).
Proof.
  extensionality x. unfold zero_state, ket, two, delta0. cbn [seq map repeat]. fold (reg m x).
  destruct (x 0%nat) eqn:E; [|destruct (eqbits (reg m x) (repeat false m)) eqn:F].
  - destruct (eqbits (true :: reg m x) (false :: repeat false m)) eqn:F; [apply eqbits_true in F; discriminate|reflexivity].
  - apply eqbits_true in F. rewrite F, eqbits_refl. reflexivity.
  - destruct (eqbits (false :: reg m x) (false :: repeat false m)) eqn:H; [|reflexivity]. apply eqbits_true in H. injection H as H. rewrite H, eqbits_refl in F. discriminate.
Qed.
Lemma appv_amps n A psi r : within n A -> length r = n -> appv n (matof (seq 0 n) A) (amps n psi) r = amps n (A psi) r.
Proof. intros W Hr. pose proof (f_equal (fun B : Op => amps n (B psi) r) (within_is_gate n A W)) as E. cbv beta in E. rewrite E, amps_gate by exact Hr. reflexivity. Qed.
Lemma delta0_amps n r : length r = n -> delta0 n r = amps n (zero_state n) r.
Proof. intros Hr. unfold zero_state. rewrite amps_ket by exact Hr. reflexivity. Qed.
Lemma appv_ext m M G G' r : (forall c, length c = m -> G c = G' c) -> appv m M G r = appv m M G' r.
Proof. intros H. apply csum_ext. intros c Hc. rewrite H by (apply bits_length; exact Hc). reflexivity. Qed.

(** * Controlled operations from projectors *)
Lemma P0_den rho c psi x : den rho (P0 c) psi x = if x c then RtoC 0 else psi x.
Proof.
  simpl. unfold gate. simpl. unfold ketbra, eqbits. destruct (x c) eqn:E; simpl.
  - destruct (list_eq_dec Bool.bool_dec [true] [false]); [discriminate|]. ring.
  - destruct (list_eq_dec Bool.bool_dec [false] [false]); [|congruence]. destruct (list_eq_dec Bool.bool_dec [true] [false]); [discriminate|]. rewrite <- E, upd_id. ring.
Qed.
Lemma P1_den rho c psi x : den rho (P1 c) psi x = if x c then psi x else RtoC 0.
Proof.
  simpl. unfold gate. simpl. unfold ketbra, eqbits. destruct (x c) eqn:E; simpl.
  - destruct (list_eq_dec Bool.bool_dec [true] [true]); [|congruence]. destruct (list_eq_dec Bool.bool_dec [false] [true]); [discriminate|]. rewrite <- E, upd_id. ring.
  - destruct (list_eq_dec Bool.bool_dec [false] [true]); [discriminate|]. ring.
Qed.
Lemma prim_I_den rho q : den rho (BPrim PI_ q) = idop.
Proof. apply gate1_id. intros [] []; reflexivity. Qed.
Lemma ids_den rho l : dchain rho (map (BPrim PI_) l) = idop.
Proof. induction l as [|q l IH]; [reflexivity|]. cbn [map]. change (seqop (den rho (BPrim PI_ q)) (dchain rho (map (BPrim PI_) l)) = idop). rewrite IH, prim_I_den. reflexivity. Qed.
Lemma projector_control rho c l s : ~ In c (qubits s) ->
  den rho (op_add (BKron (P0 c :: map (BPrim PI_) l)) (BKron [P1 c; s])) = ctrlop [c] (den rho s).
Proof.
  intros Hc. change (addop (seqop (den rho (P0 c)) (dchain rho (map (BPrim PI_) l))) (addop (seqop (den rho (P1 c)) (seqop (den rho s) idop)) zeroop) = ctrlop [c] (den rho s)).
  rewrite ids_den. extensionality psi. extensionality x. unfold addop, seqop, idop, zeroop, ctrlop. rewrite P0_den.
  assert (E : den rho (P1 c) psi = fun y => if forallb y [c] then psi y else RtoC 0).
  { extensionality y. rewrite P1_den. simpl. rewrite andb_true_r. reflexivity. }
  rewrite E, (loc_mix (fun q => In q (qubits s)) (den rho s) [c] psi (fun _ => RtoC 0) (den_loc rho s)).
  - assert (Z : den rho s (fun _ => RtoC 0) x = RtoC 0).
    { pose proof (den_linear rho s) as L. destruct L as [_ L]. specialize (L (RtoC 0) (fun _ => RtoC 0)). apply (f_equal (fun f : St => f x)) in L. 
      replace (fun x0 : asg => RtoC 0 * RtoC 0) with (fun _ : asg => RtoC 0) in L by (extensionality y; ring). rewrite L. ring. }
    rewrite Z. simpl. rewrite andb_true_r. destruct (x c); ring.
  - intros q [<-|[]]. exact Hc.
Qed.
