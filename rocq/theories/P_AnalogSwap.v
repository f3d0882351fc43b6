(** C57: the analog SWAP gate. *)
From Coq Require Import String Reals List Arith Bool Lia Lra FunctionalExtensionality.
From Coquelicot Require Import Coquelicot.
From Coq Require Import List.
From Verif Require Import S_Sets S_Ops L_Ops M_QubitSupport M_Block S_Den L_Den L_Loc L_Adj L_Support L_Gates M_BlockOps M_Tensor L_Exp L_ExpMul L_ExpOp P_States P_Unitary L_PauliExp L_Diag P_Decompose S_State L_Inner M_AnalogSwap.
Import ListNotations.
Open Scope R_scope.
Open Scope C_scope.

(** * Evolution of an eigenstate *)
Lemma opow_eigen A c l psi : linear A -> (forall x, A psi x = l * psi x) -> forall k x, opow (scaleop c A) k psi x = cpow (c * l) k * psi x.
Proof.
  intros L E. induction k as [|k IH]; intros x; cbn [opow cpow]; [unfold idop; ring|]. unfold seqop, scaleop at 1.
  replace (opow (scaleop c A) k psi) with (scaleop (cpow (c * l) k) idop psi) by (extensionality y; rewrite IH; reflexivity).
  transitivity (c * (cpow (c * l) k * A psi x)); [f_equal; exact (f_equal (fun f : St => f x) (proj2 L (cpow (c * l) k) psi))|]. rewrite E. ring.
Qed.
Lemma eop_eigen fs A (t l : R) psi : NoDup fs -> loc (inl fs) A -> (forall x, A psi x = RtoC l * psi x) -> forall x, eop fs (scaleop (- Ci * RtoC t) A) psi x = cis (- (t * l)) * psi x.
Proof.
  intros N L E x. apply eop_unique; [exact N|constructor; exact L|].
  apply (cser_ext (fun k => (ifact k * cpow (- Ci * RtoC (t * l)) k) * psi x)).
  - intros k. rewrite (opow_eigen A _ (RtoC l) psi (loc_linear _ _ L) E), RtoC_mult. replace (- Ci * (RtoC t * RtoC l)) with (- Ci * RtoC t * RtoC l) by ring. ring.
  - apply cser_scal_r, scalar_series.
Qed.

(** * The Hamiltonian *)
Definition fl (x : asg) (q : nat) : asg := upd x q (negb (x q)).
Definition sz (x : asg) (q : nat) : R := if x q then (-1)%R else 1%R.
Definition ham (c t : nat) (a b : R) : Op := fun psi x =>
  RtoC (if x c && x t then 4 else 0) * psi x + RtoC a * (psi (fl x c) + psi (fl x t)) + RtoC (b * (sz x c + sz x t)) * psi x.
Lemma den_occ rho q o psi x : occupation q = Some o -> den rho o psi x = (if x q then psi x else 0).
Proof.
  unfold occupation, op_truediv. destruct (Ceq_dec (RtoC 2) 0) as [E|E]; [apply RtoC_inj in E; lra|]. intros H. injection H as <-.
  transitivity (/ RtoC 2 * (gate1 q (prim_mat PI_) psi x + ((- (1)) * gate1 q (prim_mat PZ) psi x + 0))); [reflexivity|]. rewrite z_eq. rewrite (gate1_id q (prim_mat PI_)) by (intros [|] [|]; reflexivity). unfold idop. rewrite <- RtoC_inv by lra. destruct (x q); apply Ceq; cbn; field.
Qed.
Lemma qubits_occ q o : occupation q = Some o -> forall z, In z (qubits o) <-> z = q.
Proof. unfold occupation, op_truediv. destruct (Ceq_dec (RtoC 2) 0) as [E|E]; [discriminate|]. intros H. injection H as <-. intros z. cbn. intuition. Qed.
Lemma occ_some q : exists o, occupation q = Some o /\ is_zero o = false.
Proof. unfold occupation, op_truediv. destruct (Ceq_dec (RtoC 2) 0) as [E|E]; [apply RtoC_inj in E; lra|]. eexists. split; reflexivity. Qed.
Lemma generator_ok si rho c t : set_order si -> c <> t -> exists g, swap_generator si c t = Some g /\ den rho g = ham c t (2 / 3 * sqrt 2) (1 + sqrt 5 / 3).
Proof.
  intros Hs Hn. unfold swap_generator. destruct (occ_some c) as (nc & E1 & _), (occ_some t) as (nt & E2 & _). rewrite E1, E2. cbn [obind].
  rewrite (proj2 (proj1 (mk_kron_spec si Hs [nc; nt]))).
  - cbn [obind]. eexists. split; [reflexivity|]. extensionality psi. extensionality x. set (a := (2 / 3 * sqrt 2)%R). set (b := (1 + sqrt 5 / 3)%R).
    transitivity (RtoC 4 * den rho nt (den rho nc psi) x + (RtoC a * gate1 c (prim_mat PX) psi x + 0) + (RtoC a * gate1 t (prim_mat PX) psi x + 0) + (RtoC b * gate1 c (prim_mat PZ) psi x + 0) + (RtoC b * gate1 t (prim_mat PZ) psi x + 0)); [reflexivity|].
    unfold ham. rewrite !x_eq, !z_eq, (den_occ rho t nt _ _ E2), (den_occ rho c nc _ _ E1).
    unfold fl, sz. clearbody a b. generalize (psi (upd x c (negb (x c)))) (psi (upd x t (negb (x t)))). intros u v. destruct (psi x) as [p p'], u as [u u'], v as [v v']. destruct (x c), (x t); cbn [andb]; apply Ceq; cbn; ring.
  - split; [discriminate|]. constructor; [|repeat constructor]. constructor; [|constructor]. intros q Q1 Q2. apply (qubits_occ _ _ E1) in Q1. apply (qubits_occ _ _ E2) in Q2. congruence.
Qed.
Lemma generator_none si c : set_order si -> swap_generator si c c = None.
Proof.
  intros Hs. unfold swap_generator. destruct (occ_some c) as (nc & E1 & _). rewrite E1. cbn [obind]. destruct (mk_kron_spec si Hs [nc; nc]) as [H1 [H2|H2]]; rewrite H2; [|reflexivity].
  apply H1 in H2 as [_ O]. inversion O as [|? ? O1 _]; subst. inversion O1 as [|? ? O2 _]; subst. destruct (O2 c); apply (qubits_occ _ _ E1); reflexivity.
Qed.

(** * Its eigenstates *)
Section Pair.
  Variables (c t : nat) (Hn : c <> t).
  Definition H : Op := ham c t (2 / 3 * sqrt 2) (1 + sqrt 5 / 3).
  Definition sw : Op := swapop c t.
  Definition at_ (x : asg) (b d : bool) : asg := upd (upd x c b) t d.
  Lemma at_self x : at_ x (x c) (x t) = x.
  Proof. extensionality q. unfold at_, upd. destruct (Nat.eqb_spec q t) as [->|]; [reflexivity|]. destruct (Nat.eqb_spec q c) as [->|]; reflexivity. Qed.
  Lemma at_c x b d : at_ x b d c = b.
  Proof. unfold at_, upd. destruct (Nat.eqb_spec c t) as [E|_]; [contradiction|]. rewrite Nat.eqb_refl. reflexivity. Qed.
  Lemma at_t x b d : at_ x b d t = d.
  Proof. unfold at_, upd. rewrite Nat.eqb_refl. reflexivity. Qed.
  Lemma fl_c x b d : fl (at_ x b d) c = at_ x (negb b) d.
  Proof. unfold fl. rewrite at_c. extensionality q. unfold at_, upd. destruct (Nat.eqb_spec q c) as [->|]; [destruct (Nat.eqb_spec c t); [contradiction|reflexivity]|reflexivity]. Qed.
  Lemma fl_t x b d : fl (at_ x b d) t = at_ x b (negb d).
  Proof. unfold fl. rewrite at_t. extensionality q. unfold at_, upd. destruct (Nat.eqb_spec q t) as [->|]; reflexivity. Qed.
  Lemma sw_at psi x b d : sw psi (at_ x b d) = psi (at_ x d b).
  Proof. unfold sw, swapop. rewrite at_c, at_t. f_equal. extensionality q. unfold at_, upd. destruct (Nat.eqb_spec q t), (Nat.eqb_spec q c); reflexivity. Qed.
  Lemma H_at psi x b d : H psi (at_ x b d) =
    RtoC (if b && d then 4 else 0) * psi (at_ x b d) + RtoC (2 / 3 * sqrt 2) * (psi (at_ x (negb b) d) + psi (at_ x b (negb d))) +
    RtoC ((1 + sqrt 5 / 3) * ((if b then -1 else 1) + (if d then -1 else 1))) * psi (at_ x b d).
  Proof. unfold H, ham. rewrite fl_c, fl_t. unfold sz. rewrite at_c, at_t. reflexivity. Qed.
  Lemma by_bits (P : asg -> Prop) : (forall x b d, P (at_ x b d)) -> forall x, P x.
  Proof. intros Q x. rewrite <- (at_self x). apply Q. Qed.
  (** The antisymmetric part has energy 0. *)
  Lemma H_anti psi x : (forall y, sw psi y = - psi y) -> H psi x = 0.
  Proof.
    intros A. revert x. apply by_bits. intros x b d. assert (S : forall b d, psi (at_ x d b) = - psi (at_ x b d)) by (intros; rewrite <- sw_at; apply A).
    assert (Z : forall b, psi (at_ x b b) = 0). { intros e. specialize (S e e). destruct (psi (at_ x e e)) as [u v]. unfold Copp in S. cbn in S. injection S as S1 S2. apply Ceq; cbn; lra. }
    rewrite H_at. destruct b, d; cbn [negb andb]; rewrite ?Z, ?(S true false); apply Ceq; cbn; ring.
  Qed.
  (** On the symmetric part the energies are 4, 4/3 and -4/3. *)
  Lemma H_sym psi : (forall y, sw psi y = psi y) -> forall x, H (H (H psi)) x = RtoC 4 * H (H psi) x + RtoC (16 / 9) * H psi x - RtoC (64 / 9) * psi x.
  Proof.
    intros A. apply by_bits. intros x b d. assert (S : psi (at_ x true false) = psi (at_ x false true)) by (rewrite <- (A (at_ x true false)); apply sw_at).
    assert (E2 : (sqrt 2 * sqrt 2 = 2)%R) by (apply sqrt_sqrt; lra). assert (E5 : (sqrt 5 * sqrt 5 = 5)%R) by (apply sqrt_sqrt; lra). revert E2 E5.
    repeat rewrite !H_at. cbn [negb]. rewrite ?negb_involutive. generalize (sqrt 2) (sqrt 5). intros r s E2 E5.
    destruct (psi (at_ x true true)) as [p p'], (psi (at_ x false false)) as [u u'] eqn:Eu, (psi (at_ x false true)) as [v v'] eqn:Ev.
    destruct b, d; cbn [negb andb]; rewrite ?S, ?Eu, ?Ev; apply Ceq; cbn; field [E2 E5].
  Qed.
  Definition sgn (m : nat) : R := if Nat.even m then 1%R else (-1)%R.
  Lemma cos_sin_m m : cos (INR m * PI) = sgn m /\ sin (INR m * PI) = 0%R.
  Proof.
    induction m as [|m [IC IS]]; [unfold sgn; cbn; rewrite Rmult_0_l, cos_0, sin_0; auto|]. rewrite S_INR. replace ((INR m + 1) * PI)%R with (INR m * PI + PI)%R by ring. rewrite neg_cos, neg_sin, IC, IS.
    unfold sgn. rewrite Nat.even_succ. unfold Nat.odd. destruct (Nat.even m); cbn; split; ring.
  Qed.
  Lemma cis_m m : cis (- (INR m * PI)) = RtoC (sgn m) /\ cis (INR m * PI) = RtoC (sgn m).
  Proof. destruct (cos_sin_m m) as [IC IS]. unfold cis. rewrite cos_neg, sin_neg, IC, IS, Ropp_0. split; reflexivity. Qed.
  Lemma sgn_3 m : sgn (3 * m) = sgn m.
  Proof. unfold sgn. rewrite Nat.even_mul. reflexivity. Qed.
  Lemma evolve fs m : NoDup fs -> loc (inl fs) H -> forall psi x, eop fs (scaleop (- Ci * RtoC (INR m * (3 * PI / 4))) H) psi x =
    (psi x - sw psi x) / RtoC 2 + RtoC (sgn m) * ((psi x + sw psi x) / RtoC 2).
  Proof.
    intros N L psi x. set (T := (INR m * (3 * PI / 4))%R). set (U := eop fs _). assert (LU : linear U) by (apply (loc_linear (inl fs)), loc_eop). assert (LH : linear H) by (apply (loc_linear (inl fs)), L).
    set (i2 := RtoC (/ 2)). pose (anti := fun y => i2 * psi y + (- i2) * sw psi y). pose (sym := fun y => i2 * psi y + i2 * sw psi y).
    assert (SS : forall y, sw (sw psi) y = psi y) by (apply by_bits; intros y b d; rewrite !sw_at; reflexivity).
    assert (LS : forall k l (f g : St) y, sw (fun z => k * f z + l * g z) y = k * sw f y + l * sw g y) by (intros; reflexivity).
    assert (A : forall y, sw anti y = - anti y) by (intros y; unfold anti; rewrite LS, SS; ring).
    assert (S : forall y, sw sym y = sym y) by (intros y; unfold sym; rewrite LS, SS; ring).
    (* linear combinations *)
    assert (C1 : forall (F : Op) k l (f g : St) y, linear F -> F (fun z => k * f z + l * g z) y = k * F f y + l * F g y).
    { intros F k l f g y [LA LM]. rewrite (LA (fun z => k * f z) (fun z => l * g z)), (LM k f), (LM l g). reflexivity. }
    assert (C2 : forall (F : Op) k l n (f g h : St) y, linear F -> F (fun z => k * f z + l * g z + n * h z) y = k * F f y + l * F g y + n * F h y).
    { intros F k l n f g h y LF. pose proof LF as [LA LM]. rewrite (LA (fun z => k * f z + l * g z) (fun z => n * h z)), (LM n h). f_equal. apply C1, LF. }
    pose (h1 := H sym). pose (h2 := H h1).
    pose (p4 := fun y => RtoC (9 / 128) * h2 y + RtoC 0 * h1 y + RtoC (- (1 / 8)) * sym y).
    pose (pp := fun y => RtoC (- (9 / 64)) * h2 y + RtoC (3 / 8) * h1 y + RtoC (3 / 4) * sym y).
    pose (pm := fun y => RtoC (9 / 128) * h2 y + RtoC (- (3 / 8)) * h1 y + RtoC (3 / 8) * sym y).
    assert (H3 : forall y, H h2 y = RtoC 4 * h2 y + RtoC (16 / 9) * h1 y - RtoC (64 / 9) * sym y) by (intros y; unfold h2, h1; apply H_sym, S).
    assert (X4 : forall y, H p4 y = RtoC 4 * p4 y).
    { intros y. unfold p4. rewrite (C2 H _ _ _ h2 h1 sym y LH), H3. fold h1. fold h2. destruct (h2 y), (h1 y), (sym y). apply Ceq; cbn; field. }
    assert (Xp : forall y, H pp y = RtoC (4 / 3) * pp y).
    { intros y. unfold pp. rewrite (C2 H _ _ _ h2 h1 sym y LH), H3. fold h1. fold h2. destruct (h2 y), (h1 y), (sym y). apply Ceq; cbn; field. }
    assert (Xm : forall y, H pm y = RtoC (- (4 / 3)) * pm y).
    { intros y. unfold pm. rewrite (C2 H _ _ _ h2 h1 sym y LH), H3. fold h1. fold h2. destruct (h2 y), (h1 y), (sym y). apply Ceq; cbn; field. }
    assert (X0 : forall y, H anti y = RtoC 0 * anti y) by (intros y; rewrite (H_anti anti y A); ring).
    assert (E0 := eop_eigen fs H T 0 anti N L X0 x). assert (E4 := eop_eigen fs H T 4 p4 N L X4 x). assert (Ep := eop_eigen fs H T (4 / 3) pp N L Xp x). assert (Em := eop_eigen fs H T (- (4 / 3)) pm N L Xm x).
    fold U in E0, E4, Ep, Em.
    replace (- (T * 0))%R with 0%R in E0 by ring. rewrite cis_0 in E0.
    replace (- (T * 4))%R with (- (INR (3 * m) * PI))%R in E4 by (rewrite mult_INR; unfold T; cbn [INR]; field). rewrite (proj1 (cis_m (3 * m))), sgn_3 in E4.
    replace (- (T * (4 / 3)))%R with (- (INR m * PI))%R in Ep by (unfold T; field). rewrite (proj1 (cis_m m)) in Ep.
    replace (- (T * - (4 / 3)))%R with (INR m * PI)%R in Em by (unfold T; field). rewrite (proj2 (cis_m m)) in Em.
    assert (D1 : sym = fun y => RtoC 1 * p4 y + RtoC 1 * pp y + RtoC 1 * pm y).
    { extensionality y. unfold p4, pp, pm. destruct (h2 y), (h1 y), (sym y). apply Ceq; cbn; field. }
    assert (D2 : psi = fun y => RtoC 1 * anti y + RtoC 1 * sym y).
    { extensionality y. unfold anti, sym, i2. destruct (psi y), (sw psi y). apply Ceq; cbn; field. }
    assert (V : U psi x = anti x + RtoC (sgn m) * sym x).
    { assert (Us : U sym x = RtoC (sgn m) * sym x).
      { transitivity (U (fun y => RtoC 1 * p4 y + RtoC 1 * pp y + RtoC 1 * pm y) x); [exact (f_equal (fun f : St => U f x) D1)|]. rewrite (C2 U _ _ _ p4 pp pm x LU), E4, Ep, Em.
        assert (D1x : sym x = RtoC 1 * p4 x + RtoC 1 * pp x + RtoC 1 * pm x) by exact (f_equal (fun f : St => f x) D1). rewrite D1x. ring. }
      transitivity (U (fun y => RtoC 1 * anti y + RtoC 1 * sym y) x); [exact (f_equal (fun f : St => U f x) D2)|]. rewrite (C1 U _ _ anti sym x LU), E0, Us. ring. }
    rewrite V. unfold anti, sym, i2. destruct (psi x), (sw psi x). unfold Cdiv. rewrite <- RtoC_inv by lra. apply Ceq; cbn; field.
  Qed.
End Pair.

(** * C57 *)
(** For every pair of distinct qubits and every state of any register, the gate exchanges the two qubits, up to the global factor -1. *)
Theorem C57_swap : forall set_iter rho control target, set_order set_iter -> control <> target ->
  exists b, AnalogSWAP set_iter control target = Some b /\ den rho b = scaleop (- (1)) (swapop control target).
Proof.
  intros si rho c t Hs Hn. destruct (generator_ok si rho c t Hs Hn) as (g & E & D). unfold AnalogSWAP, AnalogSWAP_for. rewrite E. cbn [obind]. exists (BEvo g (num (3 * PI / 4))). split; [reflexivity|].
  rewrite den_evo. extensionality psi. extensionality x. change (ang rho (num (3 * PI / 4))) with (3 * PI / 4)%R. replace (3 * PI / 4)%R with (INR 1 * (3 * PI / 4))%R by (cbn; ring).
  rewrite D. change (ham c t (2 / 3 * sqrt 2) (1 + sqrt 5 / 3)) with (H c t). rewrite (evolve c t Hn _ 1); [|apply NoDup_nodup|unfold H; rewrite <- D; apply den_loc_u].
  unfold scaleop, sgn, sw. cbn [Nat.even]. destruct (psi x), (swapop c t psi x). unfold Cdiv. rewrite <- RtoC_inv by lra. apply Ceq; cbn; field.
Qed.
(** Measured probabilities are those after a SWAP. *)
Theorem C57_probabilities : forall set_iter rho control target b psi x, set_order set_iter -> control <> target -> AnalogSWAP set_iter control target = Some b ->
  Cmod (den rho b psi x) = Cmod (psi (upd (upd x control (x target)) target (x control))).
Proof.
  intros si rho c t b psi x Hs Hn E. destruct (C57_swap si rho c t Hs Hn) as (b' & E' & D). rewrite E in E'. injection E' as <-. rewrite D. unfold scaleop, swapop. rewrite Cmod_mult, Cmod_opp, Cmod_1. ring.
Qed.
(** Held for a multiple of the default duration it swaps or does nothing. *)
Theorem C57_multiples : forall set_iter rho control target m, set_order set_iter -> control <> target ->
  exists b, AnalogSWAP_for set_iter control target (num (INR m * (3 * PI / 4))) = Some b /\
    den rho b = if Nat.even m then idop else scaleop (- (1)) (swapop control target).
Proof.
  intros si rho c t m Hs Hn. destruct (generator_ok si rho c t Hs Hn) as (g & E & D). unfold AnalogSWAP_for. rewrite E. cbn [obind]. eexists. split; [reflexivity|].
  rewrite den_evo. extensionality psi. extensionality x. change (ang rho (num (INR m * (3 * PI / 4)))) with (INR m * (3 * PI / 4))%R.
  rewrite D. change (ham c t (2 / 3 * sqrt 2) (1 + sqrt 5 / 3)) with (H c t). rewrite (evolve c t Hn _ m); [|apply NoDup_nodup|unfold H; rewrite <- D; apply den_loc_u].
  unfold scaleop, sgn, sw. destruct (Nat.even m); unfold idop; destruct (psi x), (swapop c t psi x); unfold Cdiv; rewrite <- RtoC_inv by lra; apply Ceq; cbn; field.
Qed.
(** Equal qubits are rejected. *)
Theorem C57_equal : forall set_iter q parameter, set_order set_iter -> AnalogSWAP_for set_iter q q parameter = None.
Proof. intros si q p Hs. unfold AnalogSWAP_for. rewrite (generator_none si q Hs). reflexivity. Qed.
(** The gate on qubits 3 and 1 moves the basis state with qubit 3 set to the one with qubit 1 set. *)
Example C57_case : forall rho, exists b, AnalogSWAP (nodup Nat.eq_dec) 3 1 = Some b /\
  den rho b (fun x => if x 3%nat && negb (x 1%nat) then 1 else 0) (fun q => Nat.eqb q 1) = - (1).
Proof.
  intros rho. destruct (C57_swap (nodup Nat.eq_dec) rho 3 1) as (b & E & D); [intros l; split; [apply NoDup_nodup|intros q; apply nodup_In]|discriminate|].
  exists b. split; [exact E|]. rewrite D. unfold scaleop, swapop. cbn. ring.
Qed.
Print Assumptions C57_swap.
Print Assumptions C57_probabilities.
Print Assumptions C57_multiples.
Print Assumptions C57_equal.
