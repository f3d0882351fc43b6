(** C15: tomography. *)
From Coq Require Import String Reals List Arith Bool Lia Lra FunctionalExtensionality Permutation.
From Coquelicot Require Import Coquelicot.
From Coq Require Import List.
From Verif Require Import S_Ops L_Ops M_QubitSupport M_Block S_Den L_Den L_Loc L_Adj L_Gates M_BlockOps M_Transpile M_PSR S_PSR P_PSR P_Dagger S_State L_Inner M_Pauli P_Pauli M_Measure P_Measure.
Import ListNotations.
Open Scope R_scope.
Open Scope C_scope.

(** * Specification: Pauli strings on distinct qubits *)
Definition letter (p : prim) : Prop := p = PX \/ p = PY \/ p = PZ.
Inductive pauli_string : block -> list (prim * nat) -> Prop :=
| PSone p q : pauli_string (BPrim p q) [(p, q)]
| PSkron ops : ops <> [] -> pauli_string (BKron (map (fun pq => BPrim (fst pq) (snd pq)) ops)) ops
| PSchain ops : ops <> [] -> pauli_string (BChain (map (fun pq => BPrim (fst pq) (snd pq)) ops)) ops.
Definition proper (n : nat) (ops : list (prim * nat)) : Prop := NoDup (map snd ops) /\ forall p q, In (p, q) ops -> letter p /\ (q < n)%nat.
Inductive identity_string : block -> Prop :=
| ISone q : identity_string (BPrim PI_ q)
| ISkron qs : identity_string (BKron (map (BPrim PI_) qs))
| ISchain qs : identity_string (BChain (map (BPrim PI_) qs)).
(** A backend that returns the Born frequencies of the circuit it is given, for some number of shots. *)
Definition exact_sampler (n : nat) (rho : env) (psi0 : St) (sample : block -> counter) : Prop := forall b, exists N, (0 < N)%R /\ sample b = born N n (den rho b psi0).

Lemma first_qubit_prims si (ops : list (prim * nat)) : osequence (map (first_qubit si) (map (fun pq => BPrim (fst pq) (snd pq)) ops)) = Some (map snd ops).
Proof. induction ops as [|[p q] ops IH]; [reflexivity|]. cbn. rewrite IH. reflexivity. Qed.
Definition sel (p : prim) (ops : list (prim * nat)) : list nat :=
  map snd (filter (fun pq => is_op (Some p) (BPrim (fst pq) (snd pq))) ops).
Lemma first_qubit_sel si p (ops : list (prim * nat)) :
  osequence (map (first_qubit si) (filter (is_op (Some p)) (map (fun pq => BPrim (fst pq) (snd pq)) ops))) = Some (sel p ops).
Proof.
  unfold sel. induction ops as [|[p' q] ops IH]; [reflexivity|]. cbn [map filter fst snd]. destruct (is_op (Some p) (BPrim p' q)) eqn:E; [|exact IH].
  cbn [map osequence]. rewrite IH. reflexivity.
Qed.
Lemma blocks_string t ops : pauli_string t ops -> blocks_or_self t = map (fun pq => BPrim (fst pq) (snd pq)) ops.
Proof. destruct 1; reflexivity. Qed.
Lemma string_not_identity t ops n : pauli_string t ops -> proper n ops -> is_identity t = false.
Proof.
  intros S [_ P]. assert (L : forall p q, In (p, q) ops -> is_identity (BPrim p q) = false) by (intros p q I; destruct (P p q I) as [[-> | [-> | ->]] _]; reflexivity).
  assert (F : ops <> [] -> forallb is_identity (map (fun pq => BPrim (fst pq) (snd pq)) ops) = false).
  { destruct ops as [|[p q] ops]; [congruence|]. intros _. cbn [map forallb fst snd]. rewrite (L p q (or_introl eq_refl)). reflexivity. }
  destruct S as [p q|ops N|ops N]; [apply L; left; reflexivity|exact (F N)|exact (F N)].
Qed.
Lemma string_den rho t ops : pauli_string t ops -> den rho t = seqs (map (fun pq => gate1 (snd pq) (prim_mat (fst pq))) ops).
Proof.
  assert (D : forall l, dchain rho (map (fun pq => BPrim (fst pq) (snd pq)) l) = seqs (map (fun pq => gate1 (snd pq) (prim_mat (fst pq))) l)) by (intros l; rewrite dchain_seqs, map_map; reflexivity).
  destruct 1; [reflexivity|apply D|apply D].
Qed.

(** * The basis change *)
Definition basis_change (pq : prim * nat) : Op :=
  match fst pq with
  | PX => gate1 (snd pq) (prim_mat PH)
  | PY => seqop (gate1 (snd pq) (prim_mat PSdg)) (gate1 (snd pq) (prim_mat PH))
  | _ => idop
  end.
Lemma bc_loc pq : loc (fun q => q = snd pq) (basis_change pq).
Proof.
  assert (G : forall m, loc (fun q => q = snd pq) (gate1 (snd pq) m)) by (intros m; constructor; intros q [<-|[]]; reflexivity).
  unfold basis_change. destruct (fst pq); try apply loc_id; [apply G|apply loc_seq; apply G].
Qed.
Lemma seqs_loc T l : Forall (loc T) l -> loc T (seqs l).
Proof. induction 1 as [|A l HA Hl IH]; simpl; [apply loc_id|apply loc_seq; assumption]. Qed.
Lemma bcs_loc ops : loc (fun q => In q (map snd ops)) (seqs (map basis_change ops)).
Proof.
  apply seqs_loc. apply Forall_forall. intros A I. apply in_map_iff in I as (pq & <- & I). eapply loc_mono; [|apply bc_loc]. intros q ->. apply in_map. exact I.
Qed.
Lemma gate1s_loc (f : prim * nat -> bool -> bool -> C) ops : loc (fun q => In q (map snd ops)) (seqs (map (fun pq => gate1 (snd pq) (f pq)) ops)).
Proof.
  apply seqs_loc. apply Forall_forall. intros A I. apply in_map_iff in I as (pq & <- & I). constructor. intros q [<-|[]]. apply in_map. exact I.
Qed.
Lemma bc_intertwines p q : letter p -> seqop (basis_change (p, q)) (gate1 q (prim_mat PZ)) = seqop (gate1 q (prim_mat p)) (basis_change (p, q)).
Proof.
  intros [-> | [-> | ->]]; unfold basis_change; cbn [fst snd]; [| |rewrite seqop_id_l, seqop_id_r; reflexivity]; rewrite ?gate1_gate1; apply gate1_ext; intros a b; unfold mmul; destruct a, b; cbn [prim_mat mat2]; try ring.
  all: apply Ceq; simpl; field; apply Rgt_not_eq, sqrt_lt_R0; lra.
Qed.
Lemma string_intertwines n ops : proper n ops ->
  seqop (seqs (map basis_change ops)) (seqs (map (fun q => gate1 q (prim_mat PZ)) (map snd ops))) =
  seqop (seqs (map (fun pq => gate1 (snd pq) (prim_mat (fst pq))) ops)) (seqs (map basis_change ops)).
Proof.
  intros [N P]. induction ops as [|[p q] ops IH]; [reflexivity|]. cbn [map seqs fst snd] in *. inversion N as [|a b Na Nb]; subst.
  specialize (IH Nb (fun p' q' I => P p' q' (or_intror I))). destruct (P p q (or_introl eq_refl)) as [L _].
  set (R := seqs (map basis_change ops)) in *. set (Zs := seqs (map (fun q => gate1 q (prim_mat PZ)) (map snd ops))) in *. set (Ps := seqs (map (fun pq => gate1 (snd pq) (prim_mat (fst pq))) ops)) in *.
  assert (C1 : seqop R (gate1 q (prim_mat PZ)) = seqop (gate1 q (prim_mat PZ)) R).
  { eapply loc_comm; [apply bcs_loc|constructor; intros k [<-|[]]; exact (eq_refl q)|]. intros k I ->. contradiction. }
  assert (C2 : seqop (basis_change (p, q)) Ps = seqop Ps (basis_change (p, q))).
  { eapply loc_comm; [apply bc_loc|apply (gate1s_loc (fun pq => prim_mat (fst pq)))|]. cbn [snd]. intros k -> I. contradiction. }
  rewrite seqop_assoc, <- (seqop_assoc R), C1, (seqop_assoc _ R Zs), IH, <- (seqop_assoc (basis_change (p, q))), (bc_intertwines p q L).
  rewrite !seqop_assoc. f_equal. rewrite <- !seqop_assoc, C2, !seqop_assoc. reflexivity.
Qed.
Lemma bc_unitary n pq : letter (fst pq) -> (snd pq < n)%nat -> unitary_on n (basis_change pq).
Proof.
  destruct pq as [p q]. intros L H. unfold basis_change. cbn [fst snd] in *. destruct L as [-> | [-> | ->]].
  - apply unitary_prim_gate; [exact H|exact I].
  - apply unitary_seq; apply unitary_prim_gate; try exact H; exact I.
  - apply unitary_id.
Qed.
(** The rotations appended by the library, all X first, then all Y. *)
Lemma rotations_den rho n ops : proper n ops ->
  dchain rho (map (fun i => BChain [BPrim PI_ i; BPrim PH i]) (sel PX ops) ++ map (fun i => BChain [BPrim PSdg i; BPrim PH i]) (sel PY ops)) = seqs (map basis_change ops).
Proof.
  intros [N P]. rewrite dchain_app. rewrite !dchain_seqs, !map_map.
  assert (EX : forall i, den rho (BChain [BPrim PI_ i; BPrim PH i]) = gate1 i (prim_mat PH)).
  { intros i. transitivity (seqop (gate1 i (prim_mat PI_)) (gate1 i (prim_mat PH))); [reflexivity|]. rewrite (gate1_id i (prim_mat PI_)); [apply seqop_id_l|]. intros a b. destruct a, b; reflexivity. }
  assert (EY : forall i, den rho (BChain [BPrim PSdg i; BPrim PH i]) = seqop (gate1 i (prim_mat PSdg)) (gate1 i (prim_mat PH))).
  { intros i. reflexivity. }
  rewrite (map_ext _ _ EX), (map_ext _ _ EY). induction ops as [|[p q] ops IH]; [reflexivity|]. cbn [map snd] in N. inversion N as [|a b Na Nb]; subst.
  specialize (IH Nb (fun p' q' I => P p' q' (or_intror I))). destruct (P p q (or_introl eq_refl)) as [L _]. cbn [map seqs]. rewrite <- IH. destruct L as [-> | [-> | ->]].
  - unfold sel. cbn [filter is_op fst snd map seqs]. rewrite seqop_assoc. reflexivity.
  - unfold sel. cbn [filter is_op fst snd map seqs]. unfold basis_change at 1. cbn [fst snd].
    set (A := seqop (gate1 q (prim_mat PSdg)) (gate1 q (prim_mat PH))). set (B := seqs (map (fun i => gate1 i (prim_mat PH)) _)).
    assert (C1 : seqop B A = seqop A B).
    { apply (loc_comm (fun k => In k (map snd ops)) (fun k => k = q)).
      - apply seqs_loc. apply Forall_forall. intros G I. apply in_map_iff in I as (i & <- & I). constructor. intros k [<-|[]]. apply in_map_iff in I as (x & <- & I). apply filter_In in I as [I _]. apply in_map. exact I.
      - apply loc_seq; constructor; intros k [<-|[]]; reflexivity.
      - intros k I ->. contradiction. }
    rewrite <- !seqop_assoc, C1. reflexivity.
  - unfold sel. cbn [filter is_op fst snd map seqs]. unfold basis_change at 1. cbn [fst]. rewrite seqop_id_l. reflexivity.
Qed.

(** * One term *)
Lemma term_exact si n rho circuit psi0 sample t ops c : exact_sampler n rho psi0 sample -> normalised n (den rho circuit psi0) ->
  pauli_string t ops -> proper n ops -> exists v, term_value si sample false rho circuit (t, c) = Some (v * ang rho c)%R /\ RtoC v = expval n (den rho circuit psi0) (den rho t).
Proof.
  intros Hs Hn S P. unfold term_value. cbn [fst snd]. rewrite (string_not_identity t ops n S P).
  unfold rotate, get_qubit_indices_for_op. rewrite filter_none. rewrite (blocks_string t ops S). rewrite first_qubit_prims, !first_qubit_sel.
  set (rc := BChain (circuit :: _)). destruct (Hs rc) as (N & HN & E). rewrite E.
  assert (HU : unitary_on n (seqs (map basis_change ops))).
  { apply unitary_seqs. apply Forall_forall. intros A I. apply in_map_iff in I as ([p q] & <- & I). destruct P as [_ P]. destruct (P p q I). apply bc_unitary; assumption. }
  assert (Er : den rho rc psi0 = seqs (map basis_change ops) (den rho circuit psi0)).
  { unfold rc. rewrite den_chain. unfold dchain. cbn [fold_right]. fold (dchain rho). unfold seqop at 1. exact (f_equal (fun A : Op => A (den rho circuit psi0)) (rotations_den rho n ops P)). }
  assert (Hn' : normalised n (den rho rc psi0)) by (unfold normalised; rewrite Er, unitary_inner by exact HU; exact Hn).
  assert (Hq : forall q, In q (map snd ops) -> (q < n)%nat) by (intros q I; apply in_map_iff in I as ([p q'] & <- & I); apply (proj2 P p q' I)).
  rewrite C14_value; [|discriminate|intros x [<-|[]]; apply born_readable; assumption]. cbn [map hd]. eexists. split; [reflexivity|].
  rewrite (born_expval N n _ (map snd ops) HN Hn' Hq). rewrite Er. unfold expval. rewrite (string_den rho t ops S).
  change (seqs (map (fun q => gate1 q (prim_mat PZ)) (map snd ops)) (seqs (map basis_change ops) (den rho circuit psi0))) with (seqop (seqs (map basis_change ops)) (seqs (map (fun q => gate1 q (prim_mat PZ)) (map snd ops))) (den rho circuit psi0)).
  rewrite (string_intertwines n ops P). unfold seqop. apply unitary_inner. exact HU.
Qed.
Lemma identity_den rho t : identity_string t -> den rho t = idop /\ is_identity t = true.
Proof.
  assert (I1 : forall q, gate1 q (prim_mat PI_) = idop) by (intros q; apply gate1_id; intros a b; destruct a, b; reflexivity).
  assert (D : forall qs, dchain rho (map (BPrim PI_) qs) = idop) by (intros qs; rewrite dchain_seqs, map_map; apply seqs_ids; intros A IA; apply in_map_iff in IA as (q & <- & _); apply I1).
  assert (F : forall qs, forallb is_identity (map (BPrim PI_) qs) = true) by (induction qs; [reflexivity|assumption]).
  destruct 1; (split; [apply I1 || apply D|reflexivity || apply F]).
Qed.
(** * Observables *)
Definition measurable (n : nat) (rho : env) (tc : block * expr) : Prop :=
  ev rho (snd tc) = RtoC (ang rho (snd tc)) /\ (identity_string (fst tc) \/ exists ops, pauli_string (fst tc) ops /\ proper n ops).
Theorem C15_terms : forall si n rho circuit psi0 sample terms, exact_sampler n rho psi0 sample -> normalised n (den rho circuit psi0) ->
  terms <> [] -> (forall tc, In tc terms -> measurable n rho tc) ->
  exists v, iterate_pauli_decomposition si sample false rho circuit terms = Some v /\ RtoC v = expval n (den rho circuit psi0) (weighted rho terms).
Proof.
  intros si n rho circuit psi0 sample terms Hs Hn Nt H. unfold iterate_pauli_decomposition.
  assert (G : exists vs, osequence (map (term_value si sample false rho circuit) terms) = Some vs /\ RtoC (rsum vs) = expval n (den rho circuit psi0) (weighted rho terms)).
  { clear Nt. induction terms as [|[t c] terms IH]; [exists []; split; [reflexivity|cbn; rewrite expval_zero; reflexivity]|].
    destruct IH as (vs & E & S); [intros tc I; apply H; right; exact I|]. destruct (H (t, c) (or_introl eq_refl)) as [V [D|(ops & P & Pr)]]; cbn [fst snd] in *.
    - destruct (identity_den rho t D) as [D1 D2]. exists (ang rho c :: vs). cbn [map osequence]. unfold term_value at 1. cbn [fst snd]. rewrite D2, E. split; [reflexivity|].
      cbn [rsum]. change (weighted rho ((t, c) :: terms)) with (addop (scaleop (ev rho c) (den rho t)) (weighted rho terms)). rewrite expval_add, expval_scale, RtoC_plus, S, D1, V. replace (expval n (den rho circuit psi0) idop) with (RtoC 1) by (symmetry; exact Hn). ring.
    - destruct (term_exact si n rho circuit psi0 sample t ops c Hs Hn P Pr) as (v & Ev & Sv). exists ((v * ang rho c)%R :: vs). cbn [map osequence]. rewrite Ev, E. split; [reflexivity|].
      cbn [rsum]. change (weighted rho ((t, c) :: terms)) with (addop (scaleop (ev rho c) (den rho t)) (weighted rho terms)). rewrite expval_add, expval_scale, RtoC_plus, RtoC_mult, S, Sv, V. ring. }
  destruct G as (vs & E & S). exists (rsum vs). rewrite E. destruct terms; [congruence|]. split; [reflexivity|exact S].
Qed.
(** With exact frequencies tomography returns the expectation value of every observable. *)
Theorem C15_tomography : forall si n rho circuit psi0 sample observables, exact_sampler n rho psi0 sample -> normalised n (den rho circuit psi0) ->
  (forall o, In o observables -> unroll_block_with_scaling o <> [] /\ forall tc, In tc (unroll_block_with_scaling o) -> measurable n rho tc) ->
  exists vs, tomography si sample false rho circuit observables = Some vs /\ map RtoC vs = map (fun o => expval n (den rho circuit psi0) (den rho o)) observables.
Proof.
  intros si n rho circuit psi0 sample observables Hs Hn H. unfold tomography. induction observables as [|o os IH]; [exists []; split; reflexivity|].
  destruct IH as (vs & E & S); [intros x I; apply H; right; exact I|]. destruct (H o (or_introl eq_refl)) as [Ne M].
  destruct (C15_terms si n rho circuit psi0 sample _ Hs Hn Ne M) as (v & Ev & Sv). exists (v :: vs). cbn [map osequence]. rewrite Ev, E. split; [reflexivity|]. cbn [map]. rewrite S, Sv, C48_sum. reflexivity.
Qed.

(** * Where it goes wrong *)
Lemma amps_ket n b r : length r = n -> amps n (ket (seq 0 n) b) r = if eqbits r b then RtoC 1 else RtoC 0.
Proof. intros H. unfold amps, ket. rewrite upds_map by (try apply seq_NoDup; rewrite seq_length; exact H). reflexivity. Qed.
Lemma inner_ket n b psi : length b = n -> inner n (ket (seq 0 n) b) psi = amps n psi b.
Proof.
  intros H. unfold inner. rewrite (csum_single _ _ b).
  - rewrite amps_ket, eqbits_refl by exact H. rewrite Cconj_RtoC. ring.
  - apply bits_nodup.
  - apply in_bits_iff. exact H.
  - intros r Ir N. apply bits_length in Ir. rewrite amps_ket by exact Ir. replace (eqbits r b) with false by (symmetry; apply eqbits_false; exact N). rewrite Cconj_RtoC. ring.
Qed.
Lemma normalised_ket n b : length b = n -> normalised n (ket (seq 0 n) b).
Proof. intros H. unfold normalised. rewrite inner_ket, amps_ket, eqbits_refl by exact H. reflexivity. Qed.
Lemma born_ket N n b w : length b = n -> over (born N n (ket (seq 0 n) b)) w = (N * w b)%R.
Proof.
  intros H. rewrite born_over. f_equal. apply RtoC_inj. rewrite (rsum_csum (fun r => prob n (ket (seq 0 n) b) r * w r)%R).
  rewrite (csum_single _ _ b).
  - unfold prob. rewrite amps_ket, eqbits_refl by exact H. f_equal. simpl. ring.
  - apply bits_nodup.
  - apply in_bits_iff. exact H.
  - intros r Ir Nr. apply bits_length in Ir. unfold prob. rewrite amps_ket by exact Ir. replace (eqbits r b) with false by (symmetry; apply eqbits_false; exact Nr). simpl. f_equal. ring.
Qed.
(** The estimate for one term when the circuit is empty, the state a basis state, and no basis change is needed. *)
Definition sampler (n : nat) (psi0 : St) : block -> counter := fun b => born 1 n (den (fun _ => 0%R) b psi0).
Lemma sampler_exact n psi0 : exact_sampler n (fun _ => 0%R) psi0 (sampler n psi0).
Proof. intros b. exists 1%R. split; [lra|reflexivity]. Qed.
Lemma term_basis n b t s (c : R) : length b = n -> is_identity t = false -> get_qubit_indices_for_op (fun l => l) t None = Some s ->
  get_qubit_indices_for_op (fun l => l) t (Some PX) = Some [] -> get_qubit_indices_for_op (fun l => l) t (Some PY) = Some [] -> (forall q, In q s -> (q < n)%nat) ->
  iterate_pauli_decomposition (fun l => l) (sampler n (ket (seq 0 n) b)) false (fun _ => 0%R) (BChain []) [(t, ECst (RtoC c))] = Some (sign s b * c)%R.
Proof.
  intros Hb Hi Hs Hx Hy Hq. unfold iterate_pauli_decomposition. cbn [map osequence]. unfold term_value, rotate. cbn [fst snd]. rewrite Hi, Hs, Hx, Hy. cbn [map app].
  unfold sampler. change (den (fun _ => 0%R) (BChain [BChain []]) (ket (seq 0 n) b)) with (ket (seq 0 n) b).
  rewrite C14_value; [|discriminate|intros x [<-|[]]; apply born_readable; [lra|exact Hq]]. cbn [map hd]. cbn. f_equal. unfold total. rewrite !born_ket by exact Hb. unfold ang. simpl. field.
Qed.
(** Identity factors are counted in the parity: kron(Z(0), I(1)) is measured as Z(0) Z(1). *)
Theorem C15_identity_factor_refuted : exists t v b, t = BKron [BPrim PZ 0%nat; BPrim PI_ 1%nat] /\
  iterate_pauli_decomposition (fun l => l) (sampler 2 (ket (seq 0 2) b)) false (fun _ => 0%R) (BChain []) [(t, ECst (RtoC 1))] = Some v /\
  RtoC v <> expval 2 (ket (seq 0 2) b) (den (fun _ => 0%R) t).
Proof.
  exists (BKron [BPrim PZ 0%nat; BPrim PI_ 1%nat]), (-1)%R, [false; true]. split; [reflexivity|]. split.
  - rewrite (term_basis 2 [false; true] _ [0; 1]%nat); try reflexivity; [f_equal; unfold sign; simpl; lra|simpl; intuition lia].
  - unfold expval. rewrite inner_ket by reflexivity. unfold amps, ket. simpl. unfold seqop, gate1, gate, csum. simpl. apply C_neq. left. simpl. lra.
Qed.
(** N is measured as Z. *)
Theorem C15_number_refuted : exists v b,
  iterate_pauli_decomposition (fun l => l) (sampler 1 (ket (seq 0 1) b)) false (fun _ => 0%R) (BChain []) [(BPrim (PN true) 0%nat, ECst (RtoC 1))] = Some v /\
  RtoC v <> expval 1 (ket (seq 0 1) b) (den (fun _ => 0%R) (BPrim (PN true) 0%nat)).
Proof.
  exists 1%R, [false]. split.
  - rewrite (term_basis 1 [false] _ [0]%nat); try reflexivity; [f_equal; unfold sign; simpl; lra|simpl; intuition lia].
  - unfold expval. rewrite inner_ket by reflexivity. unfold amps, ket. simpl. unfold seqop, gate1, gate, csum. simpl. apply C_neq. left. simpl. lra.
Qed.
(** Nested tensor products: only the first qubit of the inner product is read. *)
Theorem C15_nested_refuted : exists t v b, t = BKron [BKron [BPrim PZ 0%nat; BPrim PZ 1%nat]; BPrim PZ 2%nat] /\
  iterate_pauli_decomposition (fun l => l) (sampler 3 (ket (seq 0 3) b)) false (fun _ => 0%R) (BChain []) [(t, ECst (RtoC 1))] = Some v /\
  RtoC v <> expval 3 (ket (seq 0 3) b) (den (fun _ => 0%R) t).
Proof.
  exists (BKron [BKron [BPrim PZ 0%nat; BPrim PZ 1%nat]; BPrim PZ 2%nat]), 1%R, [false; true; false]. split; [reflexivity|]. split.
  - rewrite (term_basis 3 [false; true; false] _ [0; 2]%nat); try reflexivity; [f_equal; unfold sign; simpl; lra|simpl; intuition lia].
  - unfold expval. rewrite inner_ket by reflexivity. unfold amps, ket. simpl. unfold seqop, gate1, gate, csum. simpl. apply C_neq. left. simpl. lra.
Qed.
(** A factor inside the string is not looked at: chain(2 * Z(0), Z(1)) is measured as Z(0) Z(1). *)
Theorem C15_inner_scale_refuted : exists t v b, t = BChain [BScale (BPrim PZ 0%nat) (ECst (RtoC 2)); BPrim PZ 1%nat] /\
  iterate_pauli_decomposition (fun l => l) (sampler 2 (ket (seq 0 2) b)) false (fun _ => 0%R) (BChain []) [(t, ECst (RtoC 1))] = Some v /\
  RtoC v <> expval 2 (ket (seq 0 2) b) (den (fun _ => 0%R) t).
Proof.
  exists (BChain [BScale (BPrim PZ 0%nat) (ECst (RtoC 2)); BPrim PZ 1%nat]), 1%R, [false; false]. split; [reflexivity|]. split.
  - rewrite (term_basis 2 [false; false] _ [0; 1]%nat); try reflexivity; [f_equal; unfold sign; simpl; lra|simpl; intuition lia].
  - unfold expval. rewrite inner_ket by reflexivity. unfold amps, ket. simpl. unfold seqop, scaleop, gate1, gate, csum. simpl. apply C_neq. left. simpl. lra.
Qed.
(** Little-endian outcome strings are read with big-endian positions. *)
Theorem C15_little_refuted : exists v b,
  iterate_pauli_decomposition (fun l => l) (sampler 2 (ket (seq 0 2) b)) true (fun _ => 0%R) (BChain []) [(BPrim PZ 0%nat, ECst (RtoC 1))] = Some v /\
  RtoC v <> expval 2 (ket (seq 0 2) b) (den (fun _ => 0%R) (BPrim PZ 0%nat)).
Proof.
  exists (-1)%R, [false; true]. split.
  - unfold iterate_pauli_decomposition. cbn [map osequence]. unfold term_value, rotate. cbn [fst snd is_identity]. cbn [get_qubit_indices_for_op].
    unfold get_qubit_indices_for_op at 1 2 3. cbn [blocks_or_self filter is_op map osequence]. cbn -[empirical_average sampler ket].
    unfold sampler. change (den (fun _ => 0%R) (BChain [BChain []]) (ket [0; 1]%nat [false; true])) with (ket (seq 0 2) [false; true]).
    rewrite C14_value; [|discriminate|].
    + cbn [map hd]. f_equal.
      assert (O : forall w, over (map (fun kv : list bool * R => (rev (fst kv), snd kv)) (born 1 2 (ket (seq 0 2) [false; true]))) w = w [true; false]).
      { intros w. transitivity (over (born 1 2 (ket (seq 0 2) [false; true])) (fun k => w (rev k))); [unfold over; rewrite map_map; reflexivity|]. rewrite born_ket by reflexivity. simpl. ring. }
      unfold total. rewrite !O. unfold sign, ang. simpl. f_equal. field.
    + intros x [<-|[]]. split; [discriminate|]. destruct (born_readable 1 2 (ket (seq 0 2) [false; true]) [0]%nat ltac:(lra) ltac:(simpl; intuition lia)) as (_ & A & B). split.
      * intros k u I. apply in_map_iff in I as ([k0 v0] & E & I). injection E as <- <-. exact (A _ _ I).
      * intros k u I i Hi. apply in_map_iff in I as ([k0 v0] & E & I). injection E as <- <-. cbn [fst]. rewrite rev_length. exact (B _ _ I i Hi).
  - unfold expval. rewrite inner_ket by reflexivity. unfold amps, ket. simpl. unfold seqop, gate1, gate, csum. simpl. apply C_neq. left. simpl. lra.
Qed.
(** Repeated letters: chain(Y(0), Y(0), Y(0)) equals Y(0), but the basis change is applied three times and Z(0) is measured. *)
Lemma basis_change_cubed : seqop (basis_change (PY, 0%nat)) (seqop (basis_change (PY, 0%nat)) (basis_change (PY, 0%nat))) = scaleop (RtoC (/ sqrt 2) * (1, -1)%R) idop.
Proof.
  unfold basis_change. cbn [fst snd]. rewrite !gate1_gate1.
  rewrite (gate1_ext 0 _ (fun a b => (RtoC (/ sqrt 2) * (1, -1)%R) * (if Bool.eqb a b then RtoC 1 else RtoC 0))).
  - rewrite <- (gate1_id 0 (fun a b => if Bool.eqb a b then RtoC 1 else RtoC 0)) at 1 by reflexivity. unfold gate1. rewrite <- gate_scale. apply gate_ext.
    intros [|a [|a' r]] [|b [|b' c]] H1 H2; try discriminate. reflexivity.
  - assert (S : (/ sqrt 2 * / sqrt 2 = / 2)%R) by (rewrite <- Rinv_mult, sqrt_sqrt by lra; reflexivity).
    assert (S3 : (/ sqrt 2 * / sqrt 2 * / sqrt 2 = / 2 * / sqrt 2)%R) by (rewrite S; reflexivity).
    assert (I : (/ RtoC (sqrt 2) = RtoC (/ sqrt 2))) by (symmetry; apply RtoC_inv; apply Rgt_not_eq, sqrt_lt_R0; lra).
    intros a b. unfold mmul. destruct a, b; cbn [prim_mat mat2 Bool.eqb]; rewrite I; set (h := (/ sqrt 2)%R) in *; clearbody h; apply Ceq; simpl; assert (C3 : (h ^ 3 = h * / 2)%R) by (rewrite <- S; ring); ring_simplify; rewrite ?C3; lra.
Qed.
Theorem C15_repeated_refuted : exists t v b, t = BChain [BPrim PY 0%nat; BPrim PY 0%nat; BPrim PY 0%nat] /\
  iterate_pauli_decomposition (fun l => l) (sampler 1 (ket (seq 0 1) b)) false (fun _ => 0%R) (BChain []) [(t, ECst (RtoC 1))] = Some v /\
  RtoC v <> expval 1 (ket (seq 0 1) b) (den (fun _ => 0%R) t).
Proof.
  exists (BChain [BPrim PY 0%nat; BPrim PY 0%nat; BPrim PY 0%nat]), 1%R, [false]. split; [reflexivity|]. split.
  - unfold iterate_pauli_decomposition. cbn [map osequence]. unfold term_value, rotate. cbn [fst snd]. cbn -[empirical_average sampler ket ang].
    unfold sampler. match goal with |- context [born 1 1 (den ?r ?b ?s)] => set (psi := den r b s) end.
    assert (Ep : psi = scaleop (RtoC (/ sqrt 2) * (1, -1)%R) idop (ket (seq 0 1) [false])).
    { rewrite <- basis_change_cubed. unfold psi. reflexivity. }
    rewrite C14_value; [|discriminate|intros x [<-|[]]; apply born_readable; [lra|simpl; intuition lia]]. cbn [map hd].
    assert (O : forall w, over (born 1 1 psi) w = w [false]).
    { intros w. rewrite born_over. unfold psi in *. rewrite Ep. unfold prob, amps, scaleop, idop, ket. simpl.
      assert (S : (/ sqrt 2 * / sqrt 2 = / 2)%R) by (rewrite <- Rinv_mult, sqrt_sqrt by lra; reflexivity). set (h := (/ sqrt 2)%R) in *. clearbody h. ring_simplify. replace (h ^ 2)%R with (/ 2)%R by (rewrite <- S; ring). field. }
    unfold total. rewrite !O. unfold sign, ang. simpl. f_equal. field.
  - unfold expval. rewrite inner_ket by reflexivity. unfold amps, ket. simpl. unfold seqop, gate1, gate, csum. simpl. apply C_neq. left. simpl. lra.
Qed.
(** The hypotheses of C15_tomography are met: 2 X(0) Y(1) + 3 I(0) - Z(1). *)
Example C15_ex : exists vs, tomography (fun l => l) (sampler 2 (ket (seq 0 2) [false; true])) false (fun _ => 0%R) (BPrim PH 0%nat)
   [BAdd [BScale (BKron [BPrim PX 0%nat; BPrim PY 1%nat]) (ECst (RtoC 2)); BScale (BPrim PI_ 0%nat) (ECst (RtoC 3)); BScale (BPrim PZ 1%nat) (ECst (RtoC (-1)))]] = Some vs.
Proof.
  destruct (C15_tomography (fun l => l) 2 (fun _ => 0%R) (BPrim PH 0%nat) (ket (seq 0 2) [false; true]) (sampler 2 (ket (seq 0 2) [false; true]))
    [BAdd [BScale (BKron [BPrim PX 0%nat; BPrim PY 1%nat]) (ECst (RtoC 2)); BScale (BPrim PI_ 0%nat) (ECst (RtoC 3)); BScale (BPrim PZ 1%nat) (ECst (RtoC (-1)))]]) as (vs & E & _).
  - apply sampler_exact.
  - unfold normalised. change (den (fun _ => 0%R) (BPrim PH 0%nat)) with (gate1 0 (prim_mat PH)). rewrite unitary_inner; [apply normalised_ket; reflexivity|]. apply unitary_prim_gate; [lia|exact I].
  - intros o [<-|[]]. split; [discriminate|]. intros tc [<-|[<-|[<-|[]]]]; (split; [reflexivity|]); cbn [fst].
    + right. exists [(PX, 0%nat); (PY, 1%nat)]. split; [apply (PSkron [(PX, 0%nat); (PY, 1%nat)]); discriminate|]. split; [repeat constructor; simpl; intuition lia|].
      unfold letter. intros p q [H|[H|[]]]; injection H as <- <-; split; auto.
    + left. constructor.
    + right. exists [(PZ, 1%nat)]. split; [constructor|]. split; [repeat constructor; simpl; intuition lia|]. unfold letter. intros p q [H|[]]; injection H as <- <-; split; auto.
  - exists vs. exact E.
Qed.
Print Assumptions C15_terms.
Print Assumptions C15_tomography.
Print Assumptions C15_identity_factor_refuted.
Print Assumptions C15_number_refuted.
Print Assumptions C15_nested_refuted.
Print Assumptions C15_inner_scale_refuted.
Print Assumptions C15_little_refuted.
Print Assumptions C15_repeated_refuted.
