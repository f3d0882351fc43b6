(** C40: every overlap method returns |<bra|ket>|^2. *)
From Coq Require Import String Reals List Arith Bool Lia Lra FunctionalExtensionality Permutation.
From Coquelicot Require Import Coquelicot.
From Coq Require Import List.
From Verif Require Import S_Sets S_Ops L_Ops M_QubitSupport L_QubitSupport M_Block S_Den L_Den L_Loc L_Adj L_Gates M_BlockOps L_Support L_Exp L_Tensor M_Tensor M_Transpile S_Transpile L_Transpile P_Invert
  P_Operators P_Dagger M_PSR S_PSR P_PSR S_State L_Inner M_Measure P_Measure P_Tomography M_States P_States P_Unitary M_Overlap L_Overlap.
From Verif Require M_Divergences P_Divergences.
Import ListNotations.
Open Scope R_scope.
Open Scope C_scope.

(** * Specification *)
(** |<bra|ket>|^2 of the states two circuits on n qubits prepare from |0...0>. *)
Definition fidelity (n : nat) (rho : env) (bra ket : block) : R :=
  (Cmod (inner n (den rho bra (zero_state n)) (den rho ket (zero_state n))) ^ 2)%R.
(** A circuit whose blocks can be moved to other qubits: well-formed Kronecker products, no Hamiltonian evolution. *)
Definition movable (b : block) : Prop := krons_all b /\ no_evo b.
Definition fits (n : nat) (b : block) : Prop := forall q, In q (qubits b) -> (q < n)%nat.
(** The reported number of qubits covers the support (fails for a lone T, U, CPHASE, ... away from the first qubits). *)
Definition wide (si : list nat -> list nat) (b : block) : Prop := fits (nqubits si b) b.

(** * Proofs *)
Lemma cmod2 z : RtoC (Cmod z ^ 2)%R = Cconj z * z.
Proof.
  unfold Cmod. rewrite pow2_sqrt by nra. destruct z as [a b]. apply Ceq; simpl; ring.
Qed.
Lemma cmod_conj z : Cmod (Cconj z) = Cmod z.
Proof. unfold Cmod. destruct z as [a b]. simpl. f_equal. ring. Qed.
Lemma csum_prod {A B} (f : A -> C) (g : B -> C) l m : csum (fun u => csum (fun v => f u * g v) m) l = csum f l * csum g m.
Proof. rewrite (csum_ext _ (fun u => f u * csum g m)); [rewrite csum_scal_r; reflexivity|]. intros u _. apply csum_scal. Qed.
Theorem C40_exact : forall n phi psi, overlap_exact (wf n phi) (wf n psi) = (Cmod (inner n phi psi) ^ 2)%R.
Proof.
  intros. unfold overlap_exact, inner, wf. f_equal. f_equal. generalize (bits n) as l. induction l as [|r l IH]; [reflexivity|]. simpl. rewrite IH. reflexivity.
Qed.
Lemma within_fits rho n b : fits n b -> within n (den rho b).
Proof. apply within_den. Qed.
Lemma fits_dagger n b : fits n b -> fits n (dagger b).
Proof. intros H q Hq. apply H. apply qubits_dagger. exact Hq. Qed.
Lemma dagger_inner rho n ket phi : fits n ket -> dag_ok rho ket ->
  amps n (den rho (dagger ket) phi) (repeat false n) = inner n (den rho ket (zero_state n)) phi.
Proof.
  intros F D. rewrite <- inner_ket by apply repeat_length. symmetry. fold (zero_state n).
  rewrite <- (inner_conj n phi), <- (inner_conj n (den rho (dagger ket) phi)). f_equal.
  apply inner_adj; [apply within_fits; exact F|apply within_fits, fits_dagger; exact F|]. intros r c Hr Hc. apply C04_dagger_is_adjoint; try assumption; [apply seq_NoDup|].
  intros q Hq. apply in_seq. specialize (F q Hq). lia.
Qed.
Lemma nat_of_zeros n : bits_to_nat (repeat false n) = 0%nat.
Proof. induction n; simpl; [reflexivity|]. exact IHn. Qed.
Theorem C40_compute_uncompute : forall rho n bra ket, fits n ket -> dag_ok rho ket ->
  overlap_compute_uncompute (wf n (den rho (compute_uncompute bra ket) (zero_state n))) = fidelity n rho bra ket.
Proof.
  intros rho n bra ket F D. unfold overlap_compute_uncompute, fidelity, compute_uncompute. rewrite <- (nat_of_zeros n), nth_wf by apply repeat_length.
  change (den rho (BChain [bra; dagger ket]) (zero_state n)) with (den rho (dagger ket) (den rho bra (zero_state n))).
  rewrite dagger_inner by assumption. rewrite <- inner_conj, cmod_conj. reflexivity.
Qed.

(** Moving a block. *)
Lemma map_shift n k : map (fun i => i + k)%nat (seq 0 n) = seq k n.
Proof.
  assert (H : forall s, map (fun i => i + k)%nat (seq s n) = seq (s + k) n).
  { induction n as [|n IH]; intros s; [reflexivity|]. simpl. rewrite IH. reflexivity. }
  apply (H 0%nat).
Qed.
Lemma shift_spec si n k b : set_order si -> movable b -> fits n b ->
  exists y, reassign si (shift_map n k) b = Some y /\ qubits y = map (fun i => i + k)%nat (qubits b) /\
    (forall rho r c, length r = n -> length c = n -> matof (seq k n) (den rho y) r c = matof (seq 0 n) (den rho b) r c) /\
    (forall rho, loc (fun q => In q (seq k n)) (den rho y)).
Proof.
  intros Hs [K E] F. assert (F' : forall q, In q (qubits b) -> In q (seq 0 n)) by (intros q Hq; apply in_seq; specialize (F q Hq); lia).
  destruct (C08_reassign si (seq 0 n) (fun i => i + k)%nat (shift_map n k) b Hs (seq_NoDup _ _)) as (y & Ey & Qy & Ry & _); try assumption.
  - intros a c _ _ H. lia.
  - intros q Hq. apply in_seq in Hq. unfold shift_map. destruct (Nat.ltb_spec q n); [reflexivity|lia].
  - exists y. split; [exact Ey|]. split; [exact Qy|]. split.
    + intros rho r c Hr Hc. specialize (Ry rho r c). rewrite map_shift, seq_length in Ry. apply Ry; assumption.
    + intros rho. eapply loc_mono; [|apply den_loc]. intros q Hq. cbn beta in Hq. rewrite Qy in Hq. apply in_map_iff in Hq. destruct Hq as (i & <- & Hi). apply in_seq. specialize (F i Hi). lia.
Qed.
Lemma osequence_ext {A B} (f g : A -> option B) l : (forall a, In a l -> f a = g a) -> osequence (map f l) = osequence (map g l).
Proof. intros H. f_equal. apply map_ext_in. exact H. Qed.
Lemma reassign_ext si m m' b : no_evo b -> (forall q, In q (qubits b) -> m q = m' q) -> reassign si m b = reassign si m' b.
Proof.
  assert (HL : forall bs, Forall (fun b => no_evo b -> (forall q, In q (qubits b) -> m q = m' q) -> reassign si m b = reassign si m' b) bs ->
    fold_right (fun x k => no_evo x /\ k) True bs -> (forall q, In q (flat_map qubits bs) -> m q = m' q) ->
    osequence (map (reassign si m) bs) = osequence (map (reassign si m') bs)).
  { intros bs HF. induction HF as [|b' bs Hb HF IH]; intros HE HQ; [reflexivity|]. destruct HE as [E1 E2]. cbn [map]. simpl osequence.
    rewrite Hb, IH; [reflexivity|exact E2| |exact E1|]; intros q Hq; apply HQ; simpl; apply in_app_iff; auto. }
  induction b as [p q|k br qs|r q e|q a b c|a b|c a b|cs b IH|cs b IH|b e IH|bs IH|bs IH|bs IH|mt qs|g t IH] using block_ind';
    cbn [qubits no_evo]; intros HE HQ; cbn [reassign]; try rewrite (HL bs) by assumption; try reflexivity.
  - rewrite HQ by (left; reflexivity). reflexivity.
  - rewrite (osequence_ext m m') by exact HQ. reflexivity.
  - rewrite HQ by (left; reflexivity). reflexivity.
  - rewrite HQ by (left; reflexivity). reflexivity.
  - rewrite !HQ by (simpl; tauto). reflexivity.
  - rewrite !HQ by (simpl; tauto). reflexivity.
  - rewrite (osequence_ext m m') by (intros; apply HQ, in_app_iff; auto). rewrite IH; [reflexivity|exact HE|]. intros; apply HQ, in_app_iff; auto.
  - rewrite (osequence_ext m m') by (intros; apply HQ, in_app_iff; auto). rewrite IH; [reflexivity|exact HE|]. intros; apply HQ, in_app_iff; auto.
  - rewrite IH; [reflexivity|exact HE|exact HQ].
  - rewrite (osequence_ext m m') by exact HQ. reflexivity.
  - destruct HE.
Qed.
Lemma kron_ok si bs : set_order si -> bs <> [] -> ForallOrdPairs disjoint_blocks bs -> mk_kron si bs = Some (BKron bs).
Proof. intros Hs H1 H2. apply (proj2 (proj1 (mk_kron_spec si Hs bs))). split; assumption. Qed.
Lemma prims_disjoint l : NoDup l -> ForallOrdPairs disjoint_blocks (map (BPrim PI_) l).
Proof.
  induction 1 as [|q l Hq Hn IH]; [constructor|]. simpl. constructor; [|exact IH]. apply Forall_forall. intros b Hb. apply in_map_iff in Hb. destruct Hb as (r & <- & Hr).
  intros k [<-|[]] [->|[]]. contradiction.
Qed.
Definition pctrl (c : nat) (l : list nat) (s : block) : block := op_add (BKron (P0 c :: map (BPrim PI_) l)) (BKron [P1 c; s]).
Lemma pctrl_build si c l s : set_order si -> NoDup (c :: l) -> ~ In c (qubits s) ->
  obind (mk_kron si (P0 c :: map (BPrim PI_) l)) (fun a => obind (mk_kron si [P1 c; s]) (fun b => Some (op_add a b))) = Some (pctrl c l s).
Proof.
  intros Hs Hn Hc. inversion Hn as [|? ? H1 H2]; subst. rewrite !kron_ok; try assumption; try discriminate; [reflexivity| |].
  - constructor; [|repeat constructor]. constructor; [|constructor]. intros q [<-|[]] Hq. contradiction.
  - constructor; [|apply prims_disjoint; exact H2]. apply Forall_forall. intros b Hb. apply in_map_iff in Hb. destruct Hb as (r & <- & Hr). intros q [<-|[]] [->|[]]. contradiction.
Qed.
Lemma cswap_build si c a b : set_order si -> c <> a -> c <> b -> a <> b -> cswap si c a b = Some (pctrl c [a; b] (BSwap a b)).
Proof.
  intros Hs H1 H2 H3. apply (pctrl_build si c [a; b] (BSwap a b) Hs).
  - repeat constructor; simpl; intuition congruence.
  - simpl. intuition congruence.
Qed.
Lemma controlled_build si b n : set_order si -> movable b -> fits n b -> wide si b ->
  exists y, controlled_unitary si 0 b = Some y /\ forall rho, exists A, den rho y = ctrlop [0%nat] A /\ loc (on_reg n) A /\
    forall G, A (lift n G) = lift n (appv n (matof (seq 0 n) (den rho b)) G).
Proof.
  intros Hs HM HF HW. destruct (shift_spec si n 1 b Hs HM HF) as (y & Ey & Qy & Ry & Ly).
  unfold controlled_unitary. rewrite (reassign_ext si _ (shift_map n 1)).
  - rewrite Ey. cbn [obind].
    replace (map (fun i => BPrim PI_ (0 + i + 1)%nat) (seq 0 (nqubits si b))) with (map (BPrim PI_) (seq 1 (nqubits si b))).
    2:{ rewrite <- (map_shift (nqubits si b) 1), map_map. reflexivity. }
    assert (N0 : ~ In 0%nat (qubits y)) by (rewrite Qy; intros H; apply in_map_iff in H; destruct H as (i & H & _); lia).
    rewrite pctrl_build; [|exact Hs| |exact N0].
    + eexists. split; [reflexivity|]. intros rho. exists (den rho y). split; [apply projector_control; exact N0|].
      split; [eapply loc_mono; [|apply Ly]; intros q; apply seq1_on|].
      intros G. rewrite <- lift_gate. pose proof (loc_is_gate (fun q => In q (seq 1 n)) (seq 1 n) (den rho y) (seq_NoDup _ _) (fun q H => H) (Ly rho)) as E.
      rewrite E. rewrite (gate_ext (seq 1 n) (matof (seq 1 n) (den rho y)) (matof (seq 0 n) (den rho b))); [reflexivity|]. intros r c Hr Hc. rewrite seq_length in Hr, Hc. apply Ry; assumption.
    + constructor; [|apply seq_NoDup]. intros H. apply in_seq in H. lia.
  - apply HM.
  - intros q Hq. unfold shift_map. specialize (HF q Hq). specialize (HW q Hq).
    destruct (Nat.ltb_spec q (nqubits si b)); [|lia]. destruct (Nat.ltb_spec q n); [reflexivity|lia].
Qed.

(** Exchange of two registers. *)
Definition sw (n k : nat) (x : asg) : asg := fun i =>
  if (Nat.leb 1 i && Nat.leb i k)%bool then x (i + n)%nat else if (Nat.leb (n + 1) i && Nat.leb i (n + k))%bool then x (i - n)%nat else x i.
Lemma swaps_eq n k psi : (k <= n)%nat -> seqs (map (fun i => swapop (i + 1) (i + 1 + n)) (seq 0 k)) psi = fun x => psi (sw n k x).
Proof.
  induction k as [|k IH]; intros Hk.
  - extensionality x. simpl. unfold idop. f_equal. extensionality i. unfold sw.
    destruct (Nat.leb_spec 1 i), (Nat.leb_spec i 0); simpl; try lia; destruct (Nat.leb_spec (n + 1) i), (Nat.leb_spec i (n + 0)); simpl; try reflexivity; lia.
  - rewrite seq_S, map_app, seqs_app. cbn [map seqs]. rewrite seqop_id_r. unfold seqop. rewrite IH by lia. extensionality x. unfold swapop. f_equal. extensionality i.
    simpl Nat.add. unfold sw, upd.
    repeat match goal with
    | |- context [Nat.leb ?a ?b] => destruct (Nat.leb_spec a b)
    | |- context [Nat.eqb ?a ?b] => destruct (Nat.eqb_spec a b)
    end; simpl; try reflexivity; try lia; try (f_equal; lia).
Qed.
Definition exch (n : nat) (r : list bool) : list bool := skipn n r ++ firstn n r.
Lemma reg_split n x : reg (n + n) x = map x (seq 1 n) ++ map x (seq (1 + n) n).
Proof. unfold reg. rewrite seq_app, map_app. reflexivity. Qed.
Lemma firstn_len {A} n (u v : list A) : length u = n -> firstn n (u ++ v) = u.
Proof. intros <-. rewrite firstn_app, Nat.sub_diag, firstn_all. simpl. apply app_nil_r. Qed.
Lemma skipn_len {A} n (u v : list A) : length u = n -> skipn n (u ++ v) = v.
Proof. intros <-. rewrite skipn_app, Nat.sub_diag, skipn_all. reflexivity. Qed.
Lemma reg_sw n x : reg (n + n) (sw n n x) = exch n (reg (n + n) x).
Proof.
  rewrite !reg_split. unfold exch. rewrite skipn_len, firstn_len by (rewrite map_length, seq_length; reflexivity). f_equal.
  - rewrite <- (map_shift n (1 + n)), <- (map_shift n 1), !map_map. apply map_ext_in. intros i Hi. apply in_seq in Hi. unfold sw.
    destruct (Nat.leb_spec 1 (i + 1)), (Nat.leb_spec (i + 1) n); simpl; try lia. f_equal. lia.
  - rewrite <- (map_shift n (1 + n)), <- (map_shift n 1), !map_map. apply map_ext_in. intros i Hi. apply in_seq in Hi. unfold sw.
    destruct (Nat.leb_spec (i + (1 + n)) n); [lia|]. rewrite andb_false_r. destruct (Nat.leb_spec (n + 1) (i + (1 + n))), (Nat.leb_spec (i + (1 + n)) (n + n)); simpl; try lia. f_equal. lia.
Qed.
Lemma swaps_lift n G : seqs (map (fun i => swapop (i + 1) (i + 1 + n)) (seq 0 n)) (lift (n + n) G) = lift (n + n) (fun r => G (exch n r)).
Proof. rewrite swaps_eq by lia. extensionality x. unfold lift. rewrite reg_sw. reflexivity. Qed.
Lemma swaps_loc n : loc (on_reg (n + n)) (seqs (map (fun i => swapop (i + 1) (i + 1 + n)) (seq 0 n))).
Proof.
  apply seqs_loc. apply Forall_forall. intros A HA. apply in_map_iff in HA. destruct HA as (i & <- & Hi). apply in_seq in Hi. apply loc_swap; unfold on_reg; lia.
Qed.
Lemma ctrl_seqs (T : nat -> Prop) c l : Forall (loc T) l -> ~ T c -> seqs (map (ctrlop [c]) l) = ctrlop [c] (seqs l).
Proof.
  intros HF Hc. induction HF as [|A l HA HF IH]; simpl; [rewrite ctrl_id; reflexivity|]. rewrite IH. apply (ctrl_seq T); [apply seqs_loc; exact HF|].
  intros q [<-|[]]. exact Hc.
Qed.
Lemma osequence_all {A B} (f : A -> option B) (g : A -> B) l : (forall a, In a l -> f a = Some (g a)) -> osequence (map f l) = Some (map g l).
Proof. induction l as [|a l IH]; intros H; [reflexivity|]. simpl. rewrite H by (left; reflexivity). rewrite IH by (intros; apply H; right; assumption). reflexivity. Qed.

(** * Swap test *)
Lemma h_sq : (/ RtoC (sqrt 2) * / RtoC (sqrt 2) = / RtoC 2)%C.
Proof. rewrite inv_sqrt2_sq. apply RtoC_inv. lra. Qed.
Lemma half_two : / RtoC 2 + / RtoC 2 = RtoC 1.
Proof. rewrite <- RtoC_inv by lra. rewrite <- RtoC_plus. f_equal. lra. Qed.
Lemma swap_probability n (a b : list bool -> C) :
  csum (fun r => Cconj (a r) * a r) (bits n) = RtoC 1 -> csum (fun r => Cconj (b r) * b r) (bits n) = RtoC 1 ->
  csum (fun r => Cconj (/ RtoC 2 * (a (firstn n r) * b (skipn n r) + a (firstn n (exch n r)) * b (skipn n (exch n r)))) *
                 (/ RtoC 2 * (a (firstn n r) * b (skipn n r) + a (firstn n (exch n r)) * b (skipn n (exch n r))))) (bits (n + n)) =
  / RtoC 2 * (RtoC 1 + RtoC (Cmod (csum (fun r => Cconj (a r) * b r)%C (bits n)) ^ 2)%R).
Proof.
  intros Ha Hb. rewrite csum_bits_app.
  set (z := csum (fun r => Cconj (a r) * b r) (bits n)).
  assert (Ez : Cconj z = csum (fun r => Cconj (b r) * a r) (bits n)).
  { unfold z. rewrite csum_conj. apply csum_ext. intros r _. rewrite Cconj_mult, Cconj_conj. ring. }
  transitivity (csum (fun u => csum (fun v => (/ RtoC 2 * / RtoC 2) * ((Cconj (a u) * a u) * (Cconj (b v) * b v) + (Cconj (b u) * b u) * (Cconj (a v) * a v) +
     ((Cconj (a u) * b u) * (Cconj (b v) * a v) + (Cconj (b u) * a u) * (Cconj (a v) * b v)))) (bits n)) (bits n)).
  - apply csum_ext. intros u Hu. apply csum_ext. intros v Hv. apply bits_length in Hu. apply bits_length in Hv.
    unfold exch. rewrite !(firstn_len n u v Hu), !(skipn_len n u v Hu), !(firstn_len n v u Hv), !(skipn_len n v u Hv).
    rewrite !Cconj_mult, !Cconj_plus, !Cconj_mult. replace (Cconj (/ RtoC 2)) with (/ RtoC 2)%C; [ring|].
    rewrite <- RtoC_inv by lra. apply Ceq; simpl; lra.
  - rewrite (csum_ext _ (fun u => (/ RtoC 2 * / RtoC 2) * csum (fun v => (Cconj (a u) * a u) * (Cconj (b v) * b v) + (Cconj (b u) * b u) * (Cconj (a v) * a v) +
     ((Cconj (a u) * b u) * (Cconj (b v) * a v) + (Cconj (b u) * a u) * (Cconj (a v) * b v))) (bits n))) by (intros u _; apply csum_scal).
    rewrite csum_scal.
    rewrite (csum_ext _ (fun u => csum (fun v => (Cconj (a u) * a u) * (Cconj (b v) * b v)) (bits n) + csum (fun v => (Cconj (b u) * b u) * (Cconj (a v) * a v)) (bits n) +
      (csum (fun v => (Cconj (a u) * b u) * (Cconj (b v) * a v)) (bits n) + csum (fun v => (Cconj (b u) * a u) * (Cconj (a v) * b v)) (bits n))))
      by (intros u _; rewrite !csum_plus; reflexivity).
    rewrite !csum_plus, !csum_prod. fold z. rewrite <- Ez, Ha, Hb, cmod2. transitivity ((/ RtoC 2 + / RtoC 2) * (/ RtoC 2 * (RtoC 1 + Cconj z * z))); [ring|]. rewrite half_two. ring.
Qed.
Lemma lift_ext m G G' : (forall r, length r = m -> G r = G' r) -> lift m G = lift m G'.
Proof. intros H. extensionality x. apply H, reg_length. Qed.
Lemma repeat_app' {A} (x : A) n m : repeat x (n + m) = repeat x n ++ repeat x m.
Proof. induction n as [|n IH]; simpl; [reflexivity|]. rewrite IH. reflexivity. Qed.
Lemma appv_delta m M (k : C) r : appv m M (fun c => k * delta0 m c) r = k * M r (repeat false m).
Proof.
  unfold appv. rewrite (csum_single _ _ (repeat false m)).
  - unfold delta0. rewrite eqbits_refl. ring.
  - apply bits_nodup.
  - apply in_bits_iff, repeat_length.
  - intros c _ Hc. unfold delta0. destruct (eqbits c (repeat false m)) eqn:E; [apply eqbits_true in E; contradiction|ring].
Qed.
Lemma column0 rho n b r : fits n b -> length r = n -> matof (seq 0 n) (den rho b) r (repeat false n) = amps n (den rho b (zero_state n)) r.
Proof. reflexivity. Qed.
Lemma states_lift n A B MA MB (k : C) : loc (fun q => In q (seq 1 n)) A -> loc (fun q => In q (seq (n + 1) n)) B ->
  (forall r c, length r = n -> length c = n -> matof (seq 1 n) A r c = MA r c) -> (forall r c, length r = n -> length c = n -> matof (seq (n + 1) n) B r c = MB r c) ->
  seqop A B (lift (n + n) (fun r => k * delta0 (n + n) r)) = lift (n + n) (fun r => k * (MA (firstn n r) (repeat false n) * MB (skipn n r) (repeat false n))).
Proof.
  intros LA LB HA HB.
  assert (Q : seq 1 (n + n) = seq 1 n ++ seq (n + 1) n) by (rewrite seq_app; f_equal; f_equal; lia).
  assert (L : loc (fun q => In q (seq 1 (n + n))) (seqop A B)).
  { apply loc_seq; eapply loc_mono; try exact LA; try exact LB; intros q Hq; cbn beta in *; rewrite Q; apply in_app_iff; auto. }
  rewrite (loc_is_gate _ (seq 1 (n + n)) _ (seq_NoDup _ _) (fun q H => H) L), lift_gate. apply lift_ext. intros r Hr.
  rewrite appv_delta. f_equal. rewrite <- (firstn_skipn n r) at 1. rewrite repeat_app', Q.
  rewrite matof_kron; try assumption; rewrite ?seq_length, ?repeat_length, ?firstn_length, ?skipn_length; try lia; [|rewrite <- Q; apply seq_NoDup].
  rewrite HA, HB; [reflexivity| | | |]; rewrite ?repeat_length, ?firstn_length, ?skipn_length; lia.
Qed.
Lemma prob_two m G0 G1 r : length r = m -> RtoC (prob (S m) (two m G0 G1) (false :: r)) = Cconj (G0 r) * G0 r.
Proof. intros Hr. rewrite prob_inner, amps_two by exact Hr. reflexivity. Qed.
Lemma prob0_two m G0 G1 : RtoC (rsum (map (fun r => prob (S m) (two m G0 G1) (false :: r)) (bits m))) = csum (fun r => Cconj (G0 r) * G0 r) (bits m).
Proof. rewrite rsum_csum. apply csum_ext. intros r Hr. apply prob_two. apply bits_length, Hr. Qed.
(** The probability of reading 0 on the ancilla. *)
Definition ancilla0 (m : nat) (psi : St) : R := rsum (map (fun r => prob (S m) psi (false :: r)) (bits m)).
Lemma swap_state si rho n bra ket : set_order si -> movable bra -> movable ket -> fits n bra -> fits n ket ->
  normalised n (den rho bra (zero_state n)) -> normalised n (den rho ket (zero_state n)) ->
  exists b, swap_test si n bra ket = Some b /\ ancilla0 (n + n) (den rho b (zero_state (S (n + n)))) = ((1 + fidelity n rho bra ket) / 2)%R.
Proof.
  intros Hs Mb Mk Fb Fk Nb Nk.
  destruct (shift_spec si n 1 bra Hs Mb Fb) as (b & Eb & Qb & Rb & Lb). destruct (shift_spec si n (n + 1) ket Hs Mk Fk) as (k & Ek & Qk & Rk & Lk).
  unfold swap_test. rewrite Eb, Ek. cbn [obind]. rewrite kron_ok; [|exact Hs|discriminate|].
  2:{ constructor; [|repeat constructor]. constructor; [|constructor]. intros q Hq Hq'. rewrite Qb in Hq. rewrite Qk in Hq'. apply in_map_iff in Hq. apply in_map_iff in Hq'.
      destruct Hq as (i & <- & Hi). destruct Hq' as (j & E & Hj). specialize (Fb i Hi). lia. }
  cbn [obind]. rewrite (osequence_all _ (fun i => pctrl 0 [i + 1; i + 1 + n]%nat (BSwap (i + 1) (i + 1 + n)))).
  2:{ intros i Hi. apply in_seq in Hi. apply cswap_build; [exact Hs|lia..]. }
  cbn [obind]. eexists. split; [reflexivity|].
  set (cs := map _ (seq 0 n)).
  assert (Dc : den rho (BChain cs) = ctrlop [0%nat] (seqs (map (fun i => swapop (i + 1) (i + 1 + n)) (seq 0 n)))).
  { change (dchain rho cs = ctrlop [0%nat] (seqs (map (fun i => swapop (i + 1) (i + 1 + n)) (seq 0 n)))). rewrite dchain_seqs. unfold cs. rewrite map_map.
    rewrite <- (ctrl_seqs (on_reg (n + n))).
    - rewrite map_map. f_equal. apply map_ext_in. intros i Hi. apply in_seq in Hi. unfold pctrl. rewrite projector_control; [reflexivity|]. simpl. lia.
    - apply Forall_forall. intros A HA. apply in_map_iff in HA. destruct HA as (i & <- & Hi). apply in_seq in Hi. apply loc_swap; unfold on_reg; lia.
    - unfold on_reg. lia. }
  set (a := fun r => amps n (den rho bra (zero_state n)) r). set (c := fun r => amps n (den rho ket (zero_state n)) r).
  set (h := (/ RtoC (sqrt 2))%C).
  assert (E : den rho (BChain [BPrim PH 0; BKron [b; k]; BChain cs; BPrim PH 0]) (zero_state (S (n + n))) =
    two (n + n) (fun r => h * (h * (a (firstn n r) * c (skipn n r))) + h * (h * (a (firstn n (exch n r)) * c (skipn n (exch n r)))))
                (fun r => h * (h * (a (firstn n r) * c (skipn n r))) + - h * (h * (a (firstn n (exch n r)) * c (skipn n (exch n r)))))).
  { change (gate1 0 (prim_mat PH) (den rho (BChain cs) (seqop (den rho b) (den rho k) (gate1 0 (prim_mat PH) (zero_state (S (n + n)))))) =
      two (n + n) (fun r => h * (h * (a (firstn n r) * c (skipn n r))) + h * (h * (a (firstn n (exch n r)) * c (skipn n (exch n r)))))
                (fun r => h * (h * (a (firstn n r) * c (skipn n r))) + - h * (h * (a (firstn n (exch n r)) * c (skipn n (exch n r)))))).
    rewrite zero_two, two_gate1. rewrite (two_ext _ _ _ (fun r => h * delta0 (n + n) r) (fun r => h * delta0 (n + n) r)) by (intros; simpl; fold h; ring).
    rewrite (two_loc (n + n) (seqop (den rho b) (den rho k)) _ _ (fun r => h * (a (firstn n r) * c (skipn n r))) (fun r => h * (a (firstn n r) * c (skipn n r)))).
    - rewrite Dc. rewrite (two_ctrl (n + n) _ _ _ (fun r => h * (a (firstn n (exch n r)) * c (skipn n (exch n r)))) (swaps_loc n)).
      + apply two_gate1.
      + apply (swaps_lift n (fun r => h * (a (firstn n r) * c (skipn n r)))).
    - apply loc_seq; eapply loc_mono; try apply Lb; try apply Lk; intros q Hq; apply in_seq in Hq; unfold on_reg; lia.
    - apply (states_lift n (den rho b) (den rho k) (matof (seq 0 n) (den rho bra)) (matof (seq 0 n) (den rho ket))); auto.
    - apply (states_lift n (den rho b) (den rho k) (matof (seq 0 n) (den rho bra)) (matof (seq 0 n) (den rho ket))); auto. }
  rewrite E. apply RtoC_inj. unfold ancilla0. rewrite prob0_two.
  transitivity (/ RtoC 2 * (RtoC 1 + RtoC (fidelity n rho bra ket))).
  - etransitivity; [|exact (swap_probability n a c Nb Nk)]. apply csum_ext. intros r _.
    assert (F : forall x y : C, h * (h * x) + h * (h * y) = / RtoC 2 * (x + y)) by (intros x y; transitivity ((h * h) * (x + y)); [ring|]; unfold h; rewrite h_sq; reflexivity).
    rewrite !F. reflexivity.
  - rewrite <- RtoC_inv by lra. rewrite <- RtoC_plus, <- RtoC_mult. f_equal. field.
Qed.
Theorem C40_swap_test : forall si rho n bra ket, set_order si -> movable bra -> movable ket -> fits n bra -> fits n ket ->
  normalised n (den rho bra (zero_state n)) -> normalised n (den rho ket (zero_state n)) ->
  exists b, swap_test si n bra ket = Some b /\ overlap_swap_test (wf (2 * n + 1) (den rho b (zero_state (2 * n + 1)))) = fidelity n rho bra ket.
Proof.
  intros si rho n bra ket Hs Mb Mk Fb Fk Nb Nk. destruct (swap_state si rho n bra ket) as (b & E & P); try assumption. exists b. split; [exact E|].
  replace (2 * n + 1)%nat with (S (n + n)) by lia. unfold overlap_swap_test. rewrite prob0_wf. unfold ancilla0 in P. rewrite P. field.
Qed.

(** * Hadamard test *)
Lemma hadamard_probability n (k : C) phi w : normalised n phi -> normalised n w ->
  csum (fun r => Cconj (/ RtoC 2 * (amps n phi r + k * amps n w r)) * (/ RtoC 2 * (amps n phi r + k * amps n w r))) (bits n) =
  / RtoC 2 * (/ RtoC 2) * (RtoC 1 + Cconj k * k + (k * inner n phi w + Cconj (k * inner n phi w))).
Proof.
  intros Np Nw. transitivity (csum (fun r => (/ RtoC 2 * / RtoC 2) * (Cconj (amps n phi r) * amps n phi r + (Cconj k * k) * (Cconj (amps n w r) * amps n w r) +
    (k * (Cconj (amps n phi r) * amps n w r) + Cconj k * (Cconj (amps n w r) * amps n phi r)))) (bits n)).
  - apply csum_ext. intros r _. rewrite !Cconj_mult, !Cconj_plus, !Cconj_mult. replace (Cconj (/ RtoC 2)) with (/ RtoC 2)%C; [ring|].
    rewrite <- RtoC_inv by lra. apply Ceq; simpl; lra.
  - rewrite csum_scal, !csum_plus, !csum_scal. f_equal. rewrite Cconj_mult, inner_conj. unfold normalised, inner in Np, Nw. rewrite Np, Nw. unfold inner. ring.
Qed.
Lemma dagger_movable b : movable b -> movable (dagger b).
Proof.
  assert (P : forall bs (Q : block -> Prop), fold_right (fun x k => Q x /\ k) True bs <-> Forall Q bs).
  { intros bs Q. induction bs as [|x bs IH]; simpl; [split; [constructor|trivial]|]. rewrite IH. split; [intros [H1 H2]; constructor; assumption|intros H; inversion H; auto]. }
  assert (HN : forall b, no_evo b -> no_evo (dagger b)).
  { intros x. induction x as [p q|k br qs|r q e|q a' b' c|a' b'|c a' b'|cs b' IH|cs b' IH|b' e IH|bs IH|bs IH|bs IH|mt qs|g t IH] using block_ind'; cbn [no_evo dagger]; auto.
    - destruct p; exact (fun _ => I).
    - rewrite !P. intros H. apply Forall_rev, Forall_map. rewrite Forall_forall in *. intros y Hy. apply IH; auto.
    - rewrite !P. intros H. apply Forall_rev, Forall_map. rewrite Forall_forall in *. intros y Hy. apply IH; auto.
    - rewrite !P. intros H. apply Forall_rev, Forall_map. rewrite Forall_forall in *. intros y Hy. apply IH; auto. }
  assert (HK : forall b, krons_all b -> krons_all (dagger b)).
  { intros x. induction x as [p q|k br qs|r q e|q a' b' c|a' b'|c a' b'|cs b' IH|cs b' IH|b' e IH|bs IH|bs IH|bs IH|mt qs|g t IH] using block_ind'; cbn [krons_all dagger]; auto.
    - destruct p; exact (fun _ => I).
    - rewrite !P. intros H. apply Forall_rev, Forall_map. rewrite Forall_forall in *. intros y Hy. apply IH; auto.
    - rewrite !P. intros (H1 & H2 & H). split; [|split].
      + intros E. apply (f_equal (@length block)) in E. rewrite rev_length, map_length in E. destruct bs; [congruence|discriminate].
      + assert (S : forall (R : block -> block -> Prop) l, (forall x y, R x y -> R y x) -> ForallOrdPairs R l -> ForallOrdPairs R (rev l)).
        { intros R l Sy F. induction F as [|y l F1 F2 IHF]; simpl; [constructor|]. assert (A : forall l1 l2, ForallOrdPairs R l1 -> ForallOrdPairs R l2 -> (forall u v, In u l1 -> In v l2 -> R u v) -> ForallOrdPairs R (l1 ++ l2)).
          { induction l1 as [|u l1 IH1]; intros l2 G1 G2 G3; simpl; [exact G2|]. inversion G1 as [|? ? G4 G5]; subst. constructor.
            - apply Forall_app. split; [exact G4|]. apply Forall_forall. intros v Hv. apply G3; [left; reflexivity|exact Hv].
            - apply IH1; [exact G5|exact G2|]. intros u' v Hu Hv. apply G3; [right; exact Hu|exact Hv]. }
          apply A; [exact IHF|repeat constructor|]. intros u v Hu [<-|[]]. apply Sy. rewrite <- in_rev in Hu. rewrite Forall_forall in F1. apply F1, Hu. }
        apply S; [intros u v D q Hu Hv; exact (D q Hv Hu)|].
        clear -H2. induction H2 as [|y l F1 F2 IHF]; simpl; constructor; [|exact IHF]. apply Forall_map. eapply Forall_impl; [|exact F1].
        intros z D q Hy Hz. apply (D q); apply qubits_dagger; assumption.
      + apply Forall_rev, Forall_map. rewrite Forall_forall in *. intros y Hy. apply IH; auto.
    - rewrite !P. intros H. apply Forall_rev, Forall_map. rewrite Forall_forall in *. intros y Hy. apply IH; auto. }
  intros [H1 H2]. split; auto.
Qed.
Lemma hadamard_state si rho n bra ket : set_order si -> movable bra -> movable ket -> fits n bra -> fits n ket -> wide si bra -> wide si (dagger ket) ->
  dag_ok rho ket -> normalised n (den rho (dagger ket) (den rho bra (zero_state n))) ->
  exists re im, hadamard_test si bra ket = Some (re, im) /\
    ancilla0 n (den rho re (zero_state (S n))) = ((1 + fst (inner n (den rho ket (zero_state n)) (den rho bra (zero_state n)))) / 2)%R /\
    ancilla0 n (den rho im (zero_state (S n))) = ((1 - snd (inner n (den rho ket (zero_state n)) (den rho bra (zero_state n)))) / 2)%R.
Proof.
  intros Hs Mb Mk Fb Fk Wb Wk Dk Nw.
  destruct (controlled_build si bra n Hs Mb Fb Wb) as (b & Eb & Hb). destruct (controlled_build si (dagger ket) n Hs (dagger_movable _ Mk) (fits_dagger _ _ Fk) Wk) as (k & Ek & Hk).
  unfold hadamard_test. rewrite Eb, Ek. cbn [obind]. do 2 eexists. split; [reflexivity|].
  destruct (Hb rho) as (A & EA & LA & TA). destruct (Hk rho) as (B & EB & LB & TB).
  set (h := (/ RtoC (sqrt 2))%C). set (w := den rho (dagger ket) (den rho bra (zero_state n))) in *.
  assert (E : den rho k (den rho b (gate1 0 (prim_mat PH) (zero_state (S n)))) = two n (fun r => h * amps n (zero_state n) r) (fun r => h * amps n w r)).
  { rewrite zero_two, two_gate1. rewrite (two_ext _ _ _ (fun r => h * amps n (zero_state n) r) (fun r => h * amps n (zero_state n) r)).
    2,3: intros r Hr; rewrite delta0_amps by exact Hr; simpl; fold h; ring.
    rewrite EA, (two_ctrl n A _ _ (fun r => h * amps n (den rho bra (zero_state n)) r) LA).
    - rewrite EB. apply (two_ctrl n B _ _ (fun r => h * amps n w r) LB). rewrite TB. apply lift_ext. intros r Hr.
      unfold w. rewrite <- appv_amps; [|apply within_fits, fits_dagger, Fk|exact Hr]. unfold appv. rewrite <- csum_scal. apply csum_ext. intros; ring.
    - rewrite TA. apply lift_ext. intros r Hr. rewrite <- appv_amps; [|apply within_fits, Fb|exact Hr]. unfold appv. rewrite <- csum_scal. apply csum_ext. intros; ring. }
  assert (I0 : inner n (zero_state n) w = inner n (den rho ket (zero_state n)) (den rho bra (zero_state n))).
  { unfold w. rewrite <- dagger_inner by assumption. unfold zero_state at 1. apply inner_ket, repeat_length. }
  assert (Nz : normalised n (zero_state n)) by (apply normalised_ket, repeat_length).
  assert (F : forall x y : C, h * (h * x) + h * (h * y) = / RtoC 2 * (x + RtoC 1 * y)) by (intros x y; transitivity ((h * h) * (x + y)); [ring|]; unfold h; rewrite h_sq; ring).
  assert (F' : forall x y : C, h * (h * x) + h * (Ci * (h * y)) = / RtoC 2 * (x + Ci * y)) by (intros x y; transitivity ((h * h) * (x + Ci * y)); [ring|]; unfold h; rewrite h_sq; reflexivity).
  split; apply RtoC_inj; unfold ancilla0.
  - change (den rho (BChain [BPrim PH 0; b; k; BPrim PH 0]) (zero_state (S n))) with (gate1 0 (prim_mat PH) (den rho k (den rho b (gate1 0 (prim_mat PH) (zero_state (S n)))))).
    rewrite E, two_gate1, prob0_two. simpl prim_mat. unfold mat2. fold h.
    rewrite (csum_ext _ (fun r => Cconj (/ RtoC 2 * (amps n (zero_state n) r + RtoC 1 * amps n w r)) * (/ RtoC 2 * (amps n (zero_state n) r + RtoC 1 * amps n w r))))
      by (intros r _; rewrite !F; reflexivity).
    rewrite (hadamard_probability n (RtoC 1) (zero_state n) w Nz Nw), I0. destruct (inner n (den rho ket (zero_state n)) (den rho bra (zero_state n))) as [x y].
    rewrite <- !RtoC_inv by lra. apply Ceq; simpl; field.
  - change (den rho (BChain [BPrim PH 0; b; k; BPrim PS 0; BPrim PH 0]) (zero_state (S n))) with (gate1 0 (prim_mat PH) (gate1 0 (prim_mat PS) (den rho k (den rho b (gate1 0 (prim_mat PH) (zero_state (S n))))))).
    rewrite E, !two_gate1, prob0_two. simpl prim_mat. unfold mat2. fold h.
    rewrite (csum_ext _ (fun r => Cconj (/ RtoC 2 * (amps n (zero_state n) r + Ci * amps n w r)) * (/ RtoC 2 * (amps n (zero_state n) r + Ci * amps n w r)))).
    2:{ intros r _. rewrite <- !F'. f_equal; [f_equal|]; ring. }
    rewrite (hadamard_probability n Ci (zero_state n) w Nz Nw), I0. destruct (inner n (den rho ket (zero_state n)) (den rho bra (zero_state n))) as [x y].
    rewrite <- !RtoC_inv by lra. apply Ceq; simpl; field.
Qed.
Lemma cmod_sq z : (Cmod z ^ 2 = fst z ^ 2 + snd z ^ 2)%R.
Proof. unfold Cmod. rewrite pow2_sqrt by nra. reflexivity. Qed.
Theorem C40_hadamard_test : forall si rho n bra ket, set_order si -> movable bra -> movable ket -> fits n bra -> fits n ket -> wide si bra -> wide si (dagger ket) ->
  dag_ok rho ket -> normalised n (den rho (dagger ket) (den rho bra (zero_state n))) ->
  exists re im, hadamard_test si bra ket = Some (re, im) /\
    overlap_hadamard_test (wf (n + 1) (den rho re (zero_state (n + 1)))) (wf (n + 1) (den rho im (zero_state (n + 1)))) = fidelity n rho bra ket.
Proof.
  intros si rho n bra ket Hs Mb Mk Fb Fk Wb Wk Dk Nw. destruct (hadamard_state si rho n bra ket) as (re & im & E & P1 & P2); try assumption. exists re, im. split; [exact E|].
  replace (n + 1)%nat with (S n) by lia. unfold overlap_hadamard_test. rewrite !prob0_conj_wf. unfold ancilla0 in P1, P2. rewrite P1, P2.
  unfold fidelity. rewrite <- (inner_conj n (den rho ket (zero_state n)) (den rho bra (zero_state n))), cmod_conj, cmod_sq. field.
Qed.

(** * All methods agree on circuits of gates *)
Theorem C40_methods_agree : forall si rho n bra ket, set_order si -> movable bra -> movable ket -> fits n bra -> fits n ket -> wide si bra -> wide si (dagger ket) ->
  gate_block rho bra -> gate_block rho ket -> dag_ok rho ket ->
  exists sw re im, swap_test si n bra ket = Some sw /\ hadamard_test si bra ket = Some (re, im) /\
    overlap_exact (wf n (den rho bra (zero_state n))) (wf n (den rho ket (zero_state n))) = fidelity n rho bra ket /\
    overlap_compute_uncompute (wf n (den rho (compute_uncompute bra ket) (zero_state n))) = fidelity n rho bra ket /\
    overlap_swap_test (wf (2 * n + 1) (den rho sw (zero_state (2 * n + 1)))) = fidelity n rho bra ket /\
    overlap_hadamard_test (wf (n + 1) (den rho re (zero_state (n + 1)))) (wf (n + 1) (den rho im (zero_state (n + 1)))) = fidelity n rho bra ket.
Proof.
  intros si rho n bra ket Hs Mb Mk Fb Fk Wb Wk Gb Gk Dk.
  assert (Nz : normalised n (zero_state n)) by (apply normalised_ket, repeat_length).
  destruct (C49_unitary rho n bra Fb Gb) as (_ & Nb & _). destruct (C49_unitary rho n ket Fk Gk) as (_ & Nk & _). specialize (Nb _ Nz). specialize (Nk _ Nz).
  assert (Nw : normalised n (den rho (dagger ket) (den rho bra (zero_state n)))).
  { destruct (C49_dagger_inverse rho ket Gk Dk) as [_ I].
    assert (A : inner n (den rho bra (zero_state n)) (den rho ket (den rho (dagger ket) (den rho bra (zero_state n)))) = inner n (den rho (dagger ket) (den rho bra (zero_state n))) (den rho (dagger ket) (den rho bra (zero_state n)))).
    { apply inner_adj; [apply within_fits; exact Fk|apply within_fits, fits_dagger; exact Fk|]. intros r c Hr Hc. apply C04_dagger_is_adjoint; try assumption; [apply seq_NoDup|].
      intros q Hq. apply in_seq. specialize (Fk q Hq). lia. }
    unfold normalised. rewrite <- A. change (den rho ket (den rho (dagger ket) (den rho bra (zero_state n)))) with (seqop (den rho (dagger ket)) (den rho ket) (den rho bra (zero_state n))).
    rewrite I. exact Nb. }
  destruct (C40_swap_test si rho n bra ket) as (sw & E1 & S1); try assumption. destruct (C40_hadamard_test si rho n bra ket) as (re & im & E2 & S2); try assumption.
  exists sw, re, im. split; [exact E1|]. split; [exact E2|]. split; [apply C40_exact|]. split; [apply C40_compute_uncompute; assumption|]. split; assumption.
Qed.
(** Composite circuits report enough qubits. *)
Lemma wide_composite si b : set_order si -> (exists bs, b = BChain bs \/ b = BKron bs \/ b = BAdd bs) -> wide si b.
Proof.
  intros Hs (bs & H) q Hq. assert (E : nqubits si b = max_plus1 (locals (bsup si b))) by (destruct H as [-> | [-> | ->]]; reflexivity).
  rewrite E. apply max_plus1_spec. apply in_bsup; assumption.
Qed.

(** * Estimates from samples *)
Lemma rsum_app_r a b : rsum (a ++ b) = (rsum a + rsum b)%R.
Proof. induction a as [|x a IH]; simpl; [ring|]. rewrite IH. ring. Qed.
Definition share (p : list bool -> bool) (shots : list (list bool)) : R := (INR (length (filter p shots)) / INR (length shots))%R.
Lemma over_indicator c k : NoDup (map fst c) -> over c (fun k' => if eqbits k' k then 1 else 0)%R = cget c k.
Proof.
  unfold over. induction c as [|[k' v] c IH]; intros N; [reflexivity|]. inversion N as [|? ? N1 N2]; subst. cbn [map rsum fst snd cget]. rewrite IH by exact N2.
  destruct (eqbits k' k) eqn:E; [|ring]. apply eqbits_true in E. subst k'. assert (Z : cget c k = 0%R); [|rewrite Z; ring].
  clear -N1. induction c as [|[k' v'] c IH]; [reflexivity|]. cbn [cget]. simpl in N1. destruct (eqbits k' k) eqn:E; [apply eqbits_true in E; tauto|]. apply IH. tauto.
Qed.
Lemma over_zero_bit c : over c (fun k => match k with false :: _ => 1 | _ => 0 end)%R = rsum (map (fun kv : list bool * R => match fst kv with false :: _ => snd kv | _ => 0 end)%R c).
Proof. unfold over. apply rsum_ext. intros [k v] _. cbn [fst snd]. destruct k as [|[] k]; ring. Qed.
Lemma rsum_filter {A} (p : A -> bool) l : rsum (map (fun a => if p a then 1 else 0)%R l) = INR (length (filter p l)).
Proof. induction l as [|a l IH]; [reflexivity|]. cbn [map rsum filter]. rewrite IH. destruct (p a); [cbn [length]; rewrite S_INR; ring|ring]. Qed.
Lemma total_snd c : rsum (map snd c) = total c.
Proof. unfold total, over. apply rsum_ext. intros; ring. Qed.
Lemma shots_total shots c : counts_of shots c -> total c = INR (length shots).
Proof. intros H. unfold total. rewrite (counts_over shots c _ H). apply rsum_ones. Qed.
Definition first0 (k : list bool) : bool := match k with false :: _ => true | _ => false end.
Lemma counts_shape shots samples N : (0 < N)%nat -> shots <> [] -> Forall2 counts_of shots samples -> (forall l, In l shots -> length l = N) ->
  exists k v r rest, samples = ((k, v) :: r) :: rest /\ rsum (map snd ((k, v) :: r)) = INR N /\ exists l, In l shots /\ In k l.
Proof.
  intros HN Ne F H. destruct F as [|l c shots samples K F]; [congruence|]. destruct c as [|[k v] r].
  - destruct K as (_ & K & _). destruct l as [|k l]; [specialize (H [] (or_introl eq_refl)); simpl in H; lia|]. destruct (proj1 (K k) (or_introl eq_refl)).
  - exists k, v, r, samples. split; [reflexivity|]. split.
    + rewrite total_snd, (shots_total l), (H l) by (exact K || (left; reflexivity)). reflexivity.
    + exists l. split; [left; reflexivity|]. apply K. left. reflexivity.
Qed.
(** Histograms of [N] shots each on n qubits: compute-uncompute reports the share of all-zero shots. *)
Theorem C40_counts_uncompute : forall n N shots samples, (0 < N)%nat -> shots <> [] -> Forall2 counts_of shots samples ->
  (forall l, In l shots -> length l = N /\ forall k, In k l -> length k = n) ->
  overlap_compute_uncompute_counts samples = Some (map (share (fun k => eqbits k (repeat false n))) shots).
Proof.
  intros n N shots samples HN Ne F H. destruct (counts_shape shots samples N HN Ne F (fun l I => proj1 (H l I))) as (k & v & r & rest & E & T & l0 & I0 & Ik).
  unfold overlap_compute_uncompute_counts. rewrite E. rewrite T, (proj2 (H l0 I0) k Ik). rewrite <- E. f_equal.
  clear -F H. induction F as [|l c shots samples K F IH]; [reflexivity|]. cbn [map]. rewrite IH by (intros; apply H; right; assumption). f_equal.
  rewrite <- over_indicator by apply K. rewrite (counts_over l c _ K), rsum_filter. unfold share. rewrite (proj1 (H l (or_introl eq_refl))). reflexivity.
Qed.
Lemma keys_nonempty n shots samples : Forall2 counts_of shots samples -> (forall l, In l shots -> forall k, In k l -> length k = S n) ->
  forallb (forallb (fun kv : list bool * R => match fst kv with [] => false | _ => true end)) samples = true.
Proof.
  intros F H. apply forallb_forall. intros c Hc. apply forallb_forall. intros [k v] Hk.
  assert (K : exists l, In l shots /\ counts_of l c).
  { clear -F Hc. induction F as [|l c' shots samples K F IH]; [destruct Hc|]. destruct Hc as [<-|Hc]; [exists l; split; [left; reflexivity|exact K]|]. destruct (IH Hc) as (l' & A & B). exists l'. split; [right; exact A|exact B]. }
  destruct K as (l & Il & (_ & K & _)). assert (L : length k = S n) by (apply (H l Il), K, in_map_iff; exists (k, v); auto). destruct k; [discriminate|reflexivity].
Qed.
(** The swap and Hadamard tests use the share of shots that read 0 on the ancilla. *)
Theorem C40_counts_ancilla : forall n N shots samples, (0 < N)%nat -> shots <> [] -> Forall2 counts_of shots samples ->
  (forall l, In l shots -> length l = N /\ forall k, In k l -> length k = S n) ->
  overlap_swap_test_counts samples = Some (map (fun l => 2 * share first0 l - 1)%R shots) /\
  (forall shots' samples', Forall2 counts_of shots' samples' -> (forall l, In l shots' -> length l = N /\ forall k, In k l -> length k = S n) ->
    overlap_hadamard_test_counts samples samples' = Some (map (fun p => (2 * share first0 (fst p) - 1) ^ 2 + (2 * share first0 (snd p) - 1) ^ 2)%R (combine shots shots'))).
Proof.
  intros n N shots samples HN Ne F H. destruct (counts_shape shots samples N HN Ne F (fun l I => proj1 (H l I))) as (k & v & r & rest & E & T & _).
  assert (S1 : forall l c, counts_of l c -> length l = N -> (rsum (map (fun kv : list bool * R => match fst kv with false :: _ => snd kv | _ => 0 end)%R c) / INR N)%R = share first0 l).
  { intros l c K L. rewrite <- over_zero_bit, (counts_over l c _ K). unfold share. rewrite L, <- rsum_filter. f_equal. apply rsum_ext. intros [|[] ?] _; reflexivity. }
  pose proof (keys_nonempty n shots samples F (fun l I => proj2 (H l I))) as KN. split.
  - unfold overlap_swap_test_counts, prob0_counts. rewrite E in KN |- *. rewrite KN, T, <- E. cbn [option_map]. f_equal. rewrite map_map. clear -F H S1.
    induction F as [|l c shots samples K F IH]; [reflexivity|]. cbn [map]. rewrite IH by (intros; apply H; right; assumption). rewrite (S1 l c K) by (apply H; left; reflexivity). reflexivity.
  - intros shots' samples' F' H'. pose proof (keys_nonempty n shots' samples' F' (fun l I => proj2 (H' l I))) as KN'.
    unfold overlap_hadamard_test_counts. rewrite E in KN |- *. rewrite KN, KN', T, <- E. cbn [andb]. f_equal. clear -F F' H H' S1. revert shots' samples' F' H'.
    induction F as [|l c shots samples K F IH]; intros shots' samples' F' H'; [reflexivity|]. destruct F' as [|l' c' shots' samples' K' F']; [reflexivity|]. cbn [combine map fst snd].
    rewrite (IH (fun l0 I => H l0 (or_intror I)) shots' samples' F' (fun l0 I => H' l0 (or_intror I))). rewrite (S1 l c K (proj1 (H l (or_introl eq_refl)))), (S1 l' c' K' (proj1 (H' l' (or_introl eq_refl)))). reflexivity.
Qed.
(** With exact frequencies the sampled estimates are the values from the state vector. *)
Theorem C40_counts_exact : forall N m psi, (0 < N)%R -> normalised (S m) psi ->
  overlap_compute_uncompute_counts [born N (S m) psi] = Some [overlap_compute_uncompute (wf (S m) psi)] /\
  overlap_swap_test_counts [born N (S m) psi] = Some [overlap_swap_test (wf (S m) psi)] /\
  (forall psi', normalised (S m) psi' -> overlap_hadamard_test_counts [born N (S m) psi] [born N (S m) psi'] = Some [overlap_hadamard_test (wf (S m) psi) (wf (S m) psi')]).
Proof.
  intros N m psi HN Np.
  assert (Sh : forall phi, exists k v r, born N (S m) phi = (k, v) :: r /\ length k = S m).
  { intros phi. unfold born. destruct (bits (S m)) as [|b l] eqn:E; [pose proof (proj2 (in_bits_iff (S m) (repeat false (S m))) (repeat_length false (S m))) as I; rewrite E in I; destruct I|].
    exists b, (N * prob (S m) phi b)%R, (map (fun b => (b, (N * prob (S m) phi b)%R)) l). split; [reflexivity|]. apply bits_length. rewrite E. left. reflexivity. }
  assert (Tot : forall phi, normalised (S m) phi -> rsum (map snd (born N (S m) phi)) = N) by (intros; rewrite total_snd; apply born_total; assumption).
  assert (KN : forall phi, forallb (fun kv : list bool * R => match fst kv with [] => false | _ => true end) (born N (S m) phi) = true).
  { intros phi. apply forallb_forall. intros [k v] I. apply in_map_iff in I as (b & E & Ib). injection E as <- <-. apply bits_length in Ib. destruct b; [discriminate|reflexivity]. }
  assert (A0 : forall phi, (rsum (map (fun kv : list bool * R => match fst kv with false :: _ => snd kv | _ => 0 end)%R (born N (S m) phi)) / N)%R = ancilla0 m phi).
  { intros phi. rewrite <- over_zero_bit, born_over. unfold ancilla0. cbn [bits]. rewrite !map_app, !map_map.
    rewrite rsum_app_r. rewrite (rsum_zero (fun x : list bool => prob (S m) phi (true :: x) * 0)%R) by (intros; ring). rewrite Rplus_0_r.
    rewrite (rsum_ext _ (fun r => prob (S m) phi (false :: r))) by (intros; ring). field. lra. }
  split; [|split].
  - destruct (Sh psi) as (k & v & r & E & L). unfold overlap_compute_uncompute_counts. pose proof (Tot psi Np) as T1. rewrite E in T1 |- *. cbv iota. cbn [map snd] in *. rewrite T1, L, <- E. f_equal. f_equal.
    rewrite <- over_indicator.
    + rewrite born_over. rewrite (rsum_single _ (bits (S m)) (repeat false (S m))).
      * rewrite eqbits_refl. unfold overlap_compute_uncompute. assert (Z : nth 0 (wf (S m) psi) (RtoC 0) = amps (S m) psi (repeat false (S m))) by (rewrite <- (nth_wf (S m) psi (repeat false (S m)) (repeat_length _ _)), nat_of_zeros; reflexivity). rewrite Z, cmod_sq. unfold prob. field. lra.
      * apply bits_nodup.
      * apply in_bits_iff, repeat_length.
      * intros x _ Hx. destruct (eqbits x (repeat false (S m))) eqn:F; [apply eqbits_true in F; contradiction|ring].
    + unfold born. rewrite map_map. cbn [fst]. rewrite map_id. apply bits_nodup.
  - destruct (Sh psi) as (k & v & r & E & L). unfold overlap_swap_test_counts, prob0_counts. pose proof (KN psi) as K1. pose proof (A0 psi) as A1. pose proof (Tot psi Np) as T1.
    rewrite E in K1, A1, T1 |- *. cbv iota. cbn [forallb] in K1 |- *. rewrite K1. cbn [andb map fst snd option_map] in *. rewrite T1, A1. unfold overlap_swap_test. rewrite prob0_wf. reflexivity.
  - intros psi' Np'. destruct (Sh psi) as (k & v & r & E & L). unfold overlap_hadamard_test_counts. pose proof (KN psi) as K1. pose proof (KN psi') as K2.
    pose proof (A0 psi) as A1. pose proof (A0 psi') as A2. pose proof (Tot psi Np) as T1. rewrite E in K1, A1, T1 |- *. cbv iota. cbn [forallb] in K1 |- *. rewrite K1, K2. cbn [andb combine map fst snd] in *.
    rewrite T1, A1, A2. unfold overlap_hadamard_test. rewrite !prob0_conj_wf. reflexivity.
Qed.

(** * Batches: with one feature each, entry (i, j) is the overlap of bra row i with ket row j *)
Definition value (d : dict) (name : string) (k : nat) : option R := match dget d name with Some v => nth_error v k | None => None end.
Lemma nth_tiled {A} (l : list A) i m : forall j, (i < length l)%nat -> (j < m)%nat -> nth_error (concat (repeat l m)) (j * length l + i) = nth_error l i.
Proof.
  induction m as [|m IH]; intros j Hi Hj; [lia|]. cbn [repeat concat]. destruct j as [|j].
  - simpl. apply nth_error_app1, Hi.
  - rewrite nth_error_app2 by lia. replace (S j * length l + i - length l)%nat with (j * length l + i)%nat by lia. apply IH; lia.
Qed.
Lemma nth_blocks n m i j : forall s, (i < n)%nat -> (j < m)%nat -> nth_error (concat (map (fun k => repeat k n) (seq s m))) (j * n + i) = Some (s + j)%nat.
Proof.
  revert j. induction m as [|m IH]; intros j s Hi Hj; [lia|]. cbn [seq map concat]. destruct j as [|j].
  - simpl. rewrite nth_error_app1 by (rewrite repeat_length; exact Hi). rewrite nth_error_repeat by exact Hi. f_equal. lia.
  - rewrite nth_error_app2; rewrite repeat_length; [|lia]. replace (S j * n + i - n)%nat with (j * n + i)%nat by lia. rewrite IH by lia. f_equal. lia.
Qed.
Theorem C40_batch : forall x y xs ys i j, x <> y -> (i < length xs)%nat -> (j < length ys)%nat ->
  let k := (j * length xs + i)%nat in
  (forall m, m = EXACT \/ m = JENSEN_SHANNON -> exists b q, process_param_values m 2 [(x, xs)] [(y, ys)] = Some (b, Some q) /\ value b x k = nth_error xs i /\ value q y k = nth_error ys j) /\
  (forall m, m = COMPUTE_UNCOMPUTE \/ m = SWAP_TEST \/ m = HADAMARD_TEST -> exists b o, process_param_values m 2 [(x, xs)] [(y, ys)] = Some (b, o) /\
     value b x k = nth_error xs i /\ value b y k = nth_error ys j /\ (m = HADAMARD_TEST -> o = Some b)) /\
  (forall flat, reshape_overlap 2 [(x, xs)] [(y, ys)] flat i j = nth k flat 0%R).
Proof.
  intros x y xs ys i j Hxy Hi Hj k.
  set (bx := concat (repeat xs (length ys))). set (ky := map (fun i => nth i ys 0%R) (concat (map (fun i => repeat i (length xs)) (seq 0 (length ys))))).
  assert (E1 : nth_error bx k = nth_error xs i) by (apply nth_tiled; assumption).
  assert (E2 : nth_error ky k = nth_error ys j).
  { unfold ky, k. rewrite (map_nth_error _ _ _ (nth_blocks (length xs) (length ys) i j 0 Hi Hj)). simpl. symmetry. apply nth_error_nth', Hj. }
  assert (U : dupdate [(x, bx)] [(y, ky)] = [(x, bx); (y, ky)]).
  { unfold dupdate, dset. simpl. destruct (String.eqb_spec x y); [contradiction|reflexivity]. }
  assert (X : String.eqb x x = true) by apply String.eqb_refl. assert (Y : String.eqb y y = true) by apply String.eqb_refl.
  assert (Z : String.eqb x y = false) by (apply String.eqb_neq; exact Hxy).
  split; [|split].
  - intros m Hm. exists [(x, bx)], [(y, ky)]. split; [destruct Hm as [-> | ->]; reflexivity|]. unfold value, dget. rewrite X, Y. auto.
  - intros m Hm. exists [(x, bx); (y, ky)], (match m with HADAMARD_TEST => Some [(x, bx); (y, ky)] | _ => None end).
    split; [destruct Hm as [-> | [-> | ->]]; cbn -[dupdate]; fold bx ky; rewrite U; reflexivity|]. unfold value, dget. rewrite X, Y, Z. split; [exact E1|]. split; [exact E2|].
    intros ->. reflexivity.
  - intros flat. unfold reshape_overlap, k. simpl. rewrite Nat.max_l by lia. reflexivity.
Qed.

(** * Jensen-Shannon: 1 exactly on equal frequencies, never below 1 - ln 2 (also on disjoint outcomes) *)
Theorem C40_jensen_shannon : forall p q, P_Divergences.measured p -> P_Divergences.measured q ->
  exists v, overlap_jensen_shannon p q = Some v /\ overlap_jensen_shannon q p = Some v /\ (1 - ln 2 <= v <= 1)%R /\
    (v = 1%R <-> forall k, P_Divergences.freq p k = P_Divergences.freq q k).
Proof.
  intros p q Hp Hq. destruct (P_Divergences.C39_js p q Hp Hq) as (d & E1 & E2 & B & Z). exists (1 - d)%R. unfold overlap_jensen_shannon. rewrite E1, E2. cbn [option_map].
  split; [reflexivity|]. split; [reflexivity|]. split; [lra|]. rewrite <- Z. split; intros; lra.
Qed.

(** * Findings *)
Definition rx (q : nat) : block := BRot RX_ q (EVar "x").
Lemma rx_zero_amp q t psi x : gate1 q (rot_mat RX_ t) psi x = rot_mat RX_ t (x q) false * psi (upd x q false) + rot_mat RX_ t (x q) true * psi (upd x q true).
Proof. apply gate1_eq. Qed.
(** Bra and ket share a feature name and get different values: compute-uncompute (like the swap test) runs its single circuit with the bra's
    values only, so it reports the overlap of the ket with itself. *)
Theorem C40_shared_feature_refuted : exists b k : dict,
  process_param_values COMPUTE_UNCOMPUTE 1 b k = Some (b, Some k) /\ value b "x" 0 = Some 0%R /\ value k "x" 0 = Some PI /\
  overlap_compute_uncompute (wf 1 (den (fun _ => 0%R) (compute_uncompute (rx 0) (rx 0)) (zero_state 1))) = 1%R /\
  overlap_exact (wf 1 (den (fun _ => 0%R) (rx 0) (zero_state 1))) (wf 1 (den (fun _ => PI) (rx 0) (zero_state 1))) = 0%R.
Proof.
  exists [("x"%string, [0%R])], [("x"%string, [PI])]. split; [reflexivity|]. split; [reflexivity|]. split; [reflexivity|]. split.
  - rewrite C40_compute_uncompute; [|intros q [<-|[]]; lia|exact I]. unfold fidelity.
    assert (N : normalised 1 (den (fun _ => 0%R) (rx 0) (zero_state 1))).
    { apply (C49_unitary (fun _ => 0%R) 1 (rx 0)); [intros q [<-|[]]; lia|exact I|apply normalised_ket; reflexivity]. }
    rewrite N, Cmod_1. ring.
  - rewrite C40_exact. replace (inner 1 (den (fun _ => 0%R) (rx 0) (zero_state 1)) (den (fun _ => PI) (rx 0) (zero_state 1))) with (RtoC 0); [rewrite Cmod_0; ring|].
    unfold inner, amps. cbn [bits map app csum seq upds]. unfold rx. cbn [den]. rewrite !gate1_eq. unfold zero_state, ket. cbn [seq map repeat]. rewrite !upd_same.
    unfold ang. simpl ev. cbn [fst RtoC]. unfold rot_mat, mat2, eqbits. cbn. rewrite cos_PI2, sin_PI2. replace (0 / 2)%R with 0%R by lra. rewrite cos_0, sin_0. apply Ceq; simpl; ring.
Qed.
(** A circuit that is a lone T gate (or U, CPHASE, matrix block) reports too few qubits: the Hadamard test raises KeyError. *)
Theorem C40_narrow_refuted : forall si, (exists b, fits 2 b /\ gate_block (fun _ => 0%R) b /\ hadamard_test si b b = None).
Proof. intros si. exists (BPrim PT 1). split; [intros q [<-|[]]; lia|]. split; [exact I|]. reflexivity. Qed.
(** * Instances *)
Definition ex_bra : block := BChain [BPrim PH 0; BCtrl [0%nat] (BPrim PX 1); BRot RX_ 1 (EVar "a")].
Definition ex_ket : block := BKron [BRot RY_ 0 (EVar "b"); BPrim PT 1].
Lemma id_order : set_order (nodup Nat.eq_dec).
Proof. intros l. split; [apply NoDup_nodup|intros q; apply nodup_In]. Qed.
Example C40_ex : forall rho, exists sw re im, swap_test (nodup Nat.eq_dec) 2 ex_bra ex_ket = Some sw /\ hadamard_test (nodup Nat.eq_dec) ex_bra ex_ket = Some (re, im) /\
  overlap_swap_test (wf 5 (den rho sw (zero_state 5))) = fidelity 2 rho ex_bra ex_ket.
Proof.
  intros rho. destruct (C40_methods_agree (nodup Nat.eq_dec) rho 2 ex_bra ex_ket id_order) as (sw & re & im & E1 & E2 & _ & _ & S & _).
  - split; cbn; tauto.
  - split; cbn; [|tauto]. split; [discriminate|]. split; [|tauto]. constructor; [|repeat constructor]. constructor; [|constructor]. simpl. intros q [<-|[]] [H|[]]. discriminate.
  - intros q Hq. simpl in Hq. lia.
  - intros q Hq. simpl in Hq. lia.
  - apply wide_composite; [apply id_order|]. eexists. left. reflexivity.
  - apply wide_composite; [apply id_order|]. eexists. right. left. reflexivity.
  - cbn. repeat split. intros q [<-|[]] [H|[]]. discriminate.
  - cbn. tauto.
  - cbn. tauto.
  - exists sw, re, im. auto.
Qed.
Example C40_ex_counts : overlap_swap_test_counts [[([false; true], 3%R); ([true; true], 1%R)]] = Some [(1 / 2)%R].
Proof. unfold overlap_swap_test_counts, prob0_counts. cbn. f_equal. f_equal. field. Qed.
Example C40_ex_batch : exists b o, process_param_values SWAP_TEST 2 [("x"%string, [1; 2]%R)] [("y"%string, [5; 6; 7]%R)] = Some (b, o) /\ value b "x" 3 = Some 2%R /\ value b "y" 3 = Some 6%R.
Proof. do 2 eexists. split; [reflexivity|]. split; reflexivity. Qed.
Print Assumptions C40_exact.
Print Assumptions C40_compute_uncompute.
Print Assumptions C40_swap_test.
Print Assumptions C40_hadamard_test.
Print Assumptions C40_methods_agree.
Print Assumptions C40_counts_uncompute.
Print Assumptions C40_counts_ancilla.
Print Assumptions C40_counts_exact.
Print Assumptions C40_batch.
Print Assumptions C40_jensen_shannon.
Print Assumptions C40_shared_feature_refuted.
Print Assumptions C40_narrow_refuted.
