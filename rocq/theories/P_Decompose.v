(** C41: digital decomposition of Hamiltonian evolution. *)
From Coq Require Import String Reals List Arith Bool Lia Lra FunctionalExtensionality Permutation.
From Coquelicot Require Import Coquelicot.
From Coq Require Import List.
From Verif Require Import S_Sets S_Ops L_Ops M_QubitSupport M_Block S_Den L_Den L_Loc L_Adj L_Gates M_BlockOps L_Exp L_Tensor M_Transpile L_Transpile P_Operators P_Dagger L_ExpMul L_ExpOp S_State L_Inner P_States M_Pauli P_Pauli P_Unitary L_PauliExp M_Decompose.
Import ListNotations.
Open Scope R_scope.
Open Scope C_scope.

(** * Specification *)
(** A Pauli string: a Pauli operator on each of some qubits. *)
Definition prims (ps : list (prim * nat)) : list block := map (fun pq => BPrim (fst pq) (snd pq)) ps.
Inductive string_block (ps : list (prim * nat)) : block -> Prop :=
| SB_one p q : ps = [(p, q)] -> string_block ps (BPrim p q)
| SB_kron : (2 <= length ps)%nat -> string_block ps (BKron (prims ps))
| SB_chain : (2 <= length ps)%nat -> string_block ps (BChain (prims ps)).
Definition xyz (p : prim) : Prop := p = PX \/ p = PY \/ p = PZ.
(** The qubits are a run of neighbours, each used once, in any order. *)
Definition neighbours (ps : list (prim * nat)) : Prop := exists a, Permutation (map snd ps) (seq a (length ps)).
(** A term [c * t] the decomposition is made for. *)
Definition term_ok (rho : env) (tc : block * expr) : Prop :=
  snd (ev rho (snd tc)) = 0%R /\ exists ps, string_block ps (fst tc) /\ Forall (fun pq => xyz (fst pq)) ps /\ neighbours ps.
(** exp(-i s c t) *)
Definition evo (rho : env) (s : R) (tc : block * expr) : Op := den rho (BEvo (BScale (fst tc) (snd tc)) (ECst (RtoC s))).

(** * Proofs *)
Definition chg (s : R) (pq : prim * nat) : list Op :=
  match fst pq with PX => [gate1 (snd pq) (prim_mat PH)] | PY => [gate1 (snd pq) (yrot s)] | _ => [] end.
Definition basis (s : R) (ps : list (prim * nat)) : list Op := flat_map (chg s) ps.
Definition is_y (p : prim) : bool := match p with PY => true | _ => false end.
Definition ycount (ps : list (prim * nat)) : nat := length (filter (fun pq => is_y (fst pq)) ps).
Definition eff (p : prim) : prim := match p with PX => PX | PY => PY | _ => PZ end.
Fixpoint wof (ps : list (prim * nat)) (i : nat) : prim := match ps with [] => PZ | (p, q) :: r => if Nat.eqb i q then eff p else wof r i end.
Lemma wof_notin ps i : ~ In i (map snd ps) -> wof ps i = PZ.
Proof. induction ps as [|[p q] ps IH]; intros H; [reflexivity|]. cbn [wof]. destruct (Nat.eqb_spec i q) as [->|N]; [exfalso; apply H; left; reflexivity|]. apply IH. intros F. apply H. right. exact F. Qed.
Lemma chg_loc s p q A : In A (chg s (p, q)) -> loc (eq q) A.
Proof. destruct p; simpl; intros I; try contradiction; destruct I as [<-|[]]; apply loc_gate1. Qed.
Lemma chg_conj s p q : s = 1%R \/ s = (-1)%R ->
  seqop (seqs (chg s (p, q))) (seqop (gate1 q (prim_mat PZ)) (seqs (rev (chg (- s) (p, q))))) = scaleop (RtoC (if is_y p then s else 1%R)) (gate1 q (prim_mat (eff p))).
Proof.
  intros Hs.
  assert (Tr : seqop idop (seqop (gate1 q (prim_mat PZ)) idop) = scaleop (RtoC 1) (gate1 q (prim_mat PZ))) by (rewrite seqop_id_l, seqop_id_r, scaleop_one; reflexivity).
  destruct p as [| | | | | | | | | |b]; try exact Tr.
  - change (seqop (seqop (gate1 q (prim_mat PH)) idop) (seqop (gate1 q (prim_mat PZ)) (seqop (gate1 q (prim_mat PH)) idop)) = scaleop (RtoC 1) (gate1 q (prim_mat PX))). rewrite !seqop_id_r, scaleop_one. apply conj_x.
  - change (seqop (seqop (gate1 q (yrot s)) idop) (seqop (gate1 q (prim_mat PZ)) (seqop (gate1 q (yrot (- s))) idop)) = scaleop (RtoC s) (gate1 q (prim_mat PY))). rewrite !seqop_id_r. apply conj_y. exact Hs.
Qed.
Lemma chg_inv s p q : seqop (seqs (chg s (p, q))) (seqs (rev (chg (- s) (p, q)))) = idop.
Proof.
  destruct p; try reflexivity.
  - change (seqop (seqop (gate1 q (prim_mat PH)) idop) (seqop (gate1 q (prim_mat PH)) idop) = idop). rewrite !seqop_id_r. apply prim_invol. unfold involutive. tauto.
  - change (seqop (seqop (gate1 q (yrot s)) idop) (seqop (gate1 q (yrot (- s))) idop) = idop). rewrite !seqop_id_r. unfold yrot. replace (- s * PI / 2)%R with (- (s * PI / 2))%R by field. apply rot_inv.
Qed.
Lemma basis_conj s ps l : s = 1%R \/ s = (-1)%R -> NoDup l -> NoDup (map snd ps) -> (forall q, In q (map snd ps) -> In q l) ->
  seqop (seqs (basis s ps)) (seqop (pprod (fun _ => PZ) l) (seqs (rev (basis (- s) ps)))) = scaleop (RtoC (s ^ ycount ps)) (pprod (wof ps) l).
Proof.
  intros Hs Nl. induction ps as [|[p q] ps IH]; intros Nq Hin.
  - cbn [basis flat_map rev seqs]. rewrite seqop_id_l, seqop_id_r. change (ycount []) with 0%nat. cbn [pow]. rewrite scaleop_one. reflexivity.
  - cbn [map] in Nq. inversion Nq as [|? ? Nn Nps]; subst. change (basis s ((p, q) :: ps)) with (chg s (p, q) ++ basis s ps). change (basis (- s) ((p, q) :: ps)) with (chg (- s) (p, q) ++ basis (- s) ps).
    rewrite rev_app_distr, !seqs_app. rewrite !seqop_assoc, <- (seqop_assoc (pprod _ l) (seqs (rev (basis _ _)))), <- (seqop_assoc (seqs (basis s ps))). rewrite IH; [|exact Nps|intros; apply Hin; right; assumption].
    rewrite seqop_scale_l by (eapply loc_linear, loc_seqs; intros A IA; apply in_rev in IA; eapply chg_loc; exact IA). rewrite seqop_scale_r.
    rewrite (pprod_conj (wof ps) l q (eff p) (RtoC (if is_y p then s else 1%R))).
    + rewrite scaleop_scale. f_equal. rewrite <- RtoC_mult. f_equal. unfold ycount. cbn [filter fst]. destruct (is_y p); cbn [length pow]; ring.
    + exact Nl.
    + apply Hin. left. reflexivity.
    + apply loc_seqs. intros A IA. eapply chg_loc. exact IA.
    + apply loc_seqs. intros A IA. apply in_rev in IA. eapply chg_loc. exact IA.
    + rewrite (wof_notin ps q) by exact Nn. apply chg_conj. exact Hs.
Qed.
Lemma basis_inv s ps : seqop (seqs (basis s ps)) (seqs (rev (basis (- s) ps))) = idop.
Proof.
  induction ps as [|[p q] ps IH]; [reflexivity|]. change (basis s ((p, q) :: ps)) with (chg s (p, q) ++ basis s ps). change (basis (- s) ((p, q) :: ps)) with (chg (- s) (p, q) ++ basis (- s) ps).
  rewrite rev_app_distr, !seqs_app, seqop_assoc, <- (seqop_assoc (seqs (basis s ps))), IH, seqop_id_l. apply chg_inv.
Qed.
Definition circ (s : R) (ps : list (prim * nat)) (lo m : nat) (th : R) : list Op :=
  basis s ps ++ ladder lo m ++ [gate1 (lo + m) (rot_mat RZ_ th)] ++ rev (ladder lo m) ++ rev (basis (- s) ps).
Lemma circ_rev s ps lo m th : rev (circ s ps lo m th) = circ (- s) ps lo m th.
Proof. unfold circ. rewrite !rev_app_distr, !rev_involutive, Ropp_involutive, <- !app_assoc. reflexivity. Qed.
Lemma circ_den s ps lo m th : s = 1%R \/ s = (-1)%R -> NoDup (map snd ps) -> (forall q, In q (map snd ps) -> (lo <= q <= lo + m)%nat) ->
  seqs (circ s ps lo m th) = rotop (th / 2) (scaleop (RtoC (s ^ ycount ps)) (pprod (wof ps) (seq lo (S m)))).
Proof.
  intros Hs N H. rewrite <- (basis_conj s ps (seq lo (S m))); [|exact Hs|apply seq_NoDup|exact N|intros q I; apply in_seq; specialize (H q I); lia].
  rewrite <- ladder_z. rewrite <- rotop_conj; [|eapply (loc_linear (fun _ => True)), loc_seqs; intros A IA; apply in_rev in IA; unfold basis in IA; apply in_flat_map in IA as ([p q] & _ & IA); eapply loc_mono; [|eapply chg_loc; exact IA]; auto|apply basis_inv].
  rewrite <- rotop_conj; [|eapply (loc_linear (fun _ => True)), loc_seqs; intros A IA; apply in_rev in IA; apply in_map_iff in IA as (i & <- & _); eapply loc_mono; [|apply loc_cx]; auto|apply ladder_inv].
  rewrite <- rz_rotop. unfold circ. rewrite !seqs_app. cbn [seqs]. rewrite seqop_id_r, !seqop_assoc. reflexivity.
Qed.
(** ** The model builds that circuit *)
Lemma oseq_cons {A} (o : option A) l : osequence (o :: l) = match o, osequence l with Some a, Some r => Some (a :: r) | _, _ => None end.
Proof. cbn [osequence]. destruct o; [|reflexivity]. cbn. destruct (osequence l); reflexivity. Qed.
Section Order.
  Variable set_iter : list nat -> list nat.
  Lemma first_prim p q : first_qubit set_iter (BPrim p q) = Some q.
  Proof. reflexivity. Qed.
  Lemma firsts ps : osequence (map (first_qubit set_iter) (prims ps)) = Some (map snd ps).
  Proof. induction ps as [|[p q] ps IH]; [reflexivity|]. change (prims ((p, q) :: ps)) with (BPrim p q :: prims ps). cbn [map]. rewrite oseq_cons, IH. reflexivity. Qed.
  Definition zb (s : R) (pq : prim * nat) : list block :=
    match fst pq with PX => [BPrim PH (snd pq)] | PY => [BRot RX_ (snd pq) (ECst (RtoC (s * PI / 2)))] | _ => [] end.
  Lemma zbasis s ps : osequence (map (fun b => change_to_z_basis set_iter b s) (prims ps)) = Some (map (zb s) ps).
  Proof.
    induction ps as [|[p q] ps IH]; [reflexivity|]. 
    change (prims ((p, q) :: ps)) with (BPrim p q :: prims ps). cbn [map]. rewrite oseq_cons, IH. destruct p; reflexivity.
  Qed.
  Lemma concat_zb s ps : concat (map (zb s) (rev ps)) = rev (concat (map (zb s) ps)).
  Proof. induction ps as [|[p q] ps IH]; [reflexivity|]. cbn [rev map concat]. rewrite map_app, concat_app, IH, rev_app_distr. f_equal. destruct p; reflexivity. Qed.
  Lemma den_zb rho s ps : map (den rho) (concat (map (zb s) ps)) = basis s ps.
  Proof. induction ps as [|[p q] ps IH]; [reflexivity|]. cbn [map concat]. rewrite map_app, IH. unfold basis at 2. cbn [flat_map]. f_equal. destruct p; reflexivity. Qed.
  Lemma fold_min l : forall x, (fold_left Nat.min l x <= x)%nat /\ (forall q, In q l -> (fold_left Nat.min l x <= q)%nat) /\ (fold_left Nat.min l x = x \/ In (fold_left Nat.min l x) l).
  Proof.
    induction l as [|a l IH]; intros x; cbn [fold_left]; [repeat split; [lia|intros q []|auto]|]. destruct (IH (Nat.min x a)) as (A & B & D). repeat split; [lia|intros q [<-|I]; [lia|auto]|].
    destruct D as [D|D]; [|right; right; exact D]. destruct (Nat.min_spec x a) as [[_ E]|[_ E]]; rewrite E in D at 2; [left; exact D|right; left; symmetry; exact D].
  Qed.
  Lemma fold_max l : forall x, (x <= fold_left Nat.max l x)%nat /\ (forall q, In q l -> (q <= fold_left Nat.max l x)%nat) /\ (fold_left Nat.max l x = x \/ In (fold_left Nat.max l x) l).
  Proof.
    induction l as [|a l IH]; intros x; cbn [fold_left]; [repeat split; [lia|intros q []|auto]|]. destruct (IH (Nat.max x a)) as (A & B & D). repeat split; [lia|intros q [<-|I]; [lia|auto]|].
    destruct D as [D|D]; [|right; right; exact D]. destruct (Nat.max_spec x a) as [[_ E]|[_ E]]; rewrite E in D at 2; [right; left; symmetry; exact D|left; exact D].
  Qed.
  Lemma min_max l : l <> [] -> exists lo hi, py_min l = Some lo /\ py_max l = Some hi /\ In lo l /\ In hi l /\ forall q, In q l -> (lo <= q <= hi)%nat.
  Proof.
    destruct l as [|x l]; [contradiction|]. intros _. exists (fold_left Nat.min l x), (fold_left Nat.max l x). destruct (fold_min l x) as (A & B & D), (fold_max l x) as (A' & B' & D').
    repeat split; try reflexivity; [destruct D as [->|D]; [left; reflexivity|right; exact D]|destruct D' as [->|D']; [left; reflexivity|right; exact D']| |]; destruct H as [<-|I]; auto.
  Qed.
  Definition fact_ (scale parameter : expr) : expr := EMul (EMul (ECst (RtoC 2)) parameter) scale.
  Lemma term_circ t ps scale parameter : as_list t = Some (prims ps) -> ps <> [] ->
    exists lo m bs, In lo (map snd ps) /\ In (lo + m)%nat (map snd ps) /\ (forall q, In q (map snd ps) -> (lo <= q <= lo + m)%nat) /\
      decompose_term set_iter t scale parameter = Some bs /\ forall rho, map (den rho) bs = circ 1 ps lo m (ang rho (fact_ scale parameter)).
  Proof.
    intros E Ne. unfold decompose_term. rewrite E, firsts. destruct (min_max (map snd ps)) as (lo & hi & E1 & E2 & I1 & I2 & B); [destruct ps; [contradiction|discriminate]|].
    assert (R : rev (prims ps) = prims (rev ps)) by (unfold prims; rewrite map_rev; reflexivity). rewrite E1, E2, R, !zbasis. pose proof (B hi I2).
    exists lo, (hi - lo)%nat. eexists. replace (lo + (hi - lo))%nat with hi by lia. repeat split; try assumption; try (apply B; assumption).
    intros rho. rewrite !map_app, map_rev, concat_zb, map_rev, !den_zb. unfold circ. replace (lo + (hi - lo))%nat with hi by lia. replace (- (1))%R with (-1)%R by ring.
    assert (L : map (den rho) (map (fun i => CNOT i (i + 1)) (seq lo (hi - lo))) = ladder lo (hi - lo)) by (rewrite map_map; reflexivity). rewrite L. reflexivity.
  Qed.
End Order.
(** ** Terms *)
Lemma ang_fact rho scale prm k : ev rho scale = RtoC k -> ang rho (fact_ scale prm) = (2 * (ang rho prm * k))%R.
Proof. intros E. unfold ang, fact_. cbn [ev]. rewrite E. destruct (ev rho prm) as [a b]. simpl. ring. Qed.
Lemma real_ev (z : C) : snd z = 0%R -> exists k, z = RtoC k.
Proof. destruct z as [a b]. simpl. intros ->. exists a. reflexivity. Qed.
Lemma rotop_scale t e Q : e = 1%R \/ e = (-1)%R -> rotop t (scaleop (RtoC e) Q) = rotop (e * t) Q.
Proof.
  intros H. extensionality psi. extensionality x. unfold rotop, addop, scaleop, idop. destruct H as [-> | ->].
  - rewrite Rmult_1_l. ring.
  - replace (-1 * t)%R with (- t)%R by ring. rewrite cos_neg, sin_neg, RtoC_opp. replace (RtoC (-1)) with (- RtoC 1) by (rewrite <- RtoC_opp; f_equal; ring). ring.
Qed.
Lemma evo_eop rho s t c fs : NoDup fs -> (forall q, In q (qubits t) -> In q fs) -> evo rho s (t, c) = eop fs (scaleop (- Ci * RtoC s) (scaleop (ev rho c) (den rho t))).
Proof.
  intros N H. unfold evo. cbn [fst snd]. rewrite den_evo. change (ang rho (ECst (RtoC s))) with s. apply eop_indep; [apply NoDup_nodup|exact N| |].
  - apply loc_scale. exact (den_loc_u rho (BScale t c)).
  - apply loc_scale, loc_scale. eapply loc_mono; [|apply den_loc]. exact H.
Qed.
Lemma evo_rotop rho s t c k : ev rho c = RtoC k -> seqop (den rho t) (den rho t) = idop -> evo rho s (t, c) = rotop (s * k) (den rho t).
Proof.
  intros E Q. rewrite (evo_eop rho s t c (uqubits t)); [|apply NoDup_nodup|intros q I; apply in_uqubits; exact I]. rewrite E, scaleop_scale.
  replace (- Ci * RtoC s * RtoC k) with (- Ci * RtoC (s * k)) by (rewrite RtoC_mult; ring). apply eop_invol; [apply NoDup_nodup|apply den_loc_u|exact Q].
Qed.
Lemma wof_in ps p q : NoDup (map snd ps) -> In (p, q) ps -> wof ps q = eff p.
Proof.
  induction ps as [|[p' q'] ps IH]; intros N I; [contradiction|]. cbn [map snd] in N. inversion N; subst. cbn [wof]. destruct I as [I|I].
  - injection I as -> ->. rewrite Nat.eqb_refl. reflexivity.
  - destruct (Nat.eqb_spec q q') as [->|]; [|apply IH; assumption]. exfalso. match goal with H : ~ In _ _ |- _ => apply H end. apply in_map_iff. exists (p, q'). auto.
Qed.
Lemma wof_cases ps i : wof ps i = PX \/ wof ps i = PY \/ wof ps i = PZ.
Proof. induction ps as [|[p q] ps IH]; [auto|]. cbn [wof]. destruct (Nat.eqb i q); [destruct p; simpl; auto|exact IH]. Qed.
Lemma wof_invol ps i : involutive (wof ps i).
Proof. unfold involutive. destruct (wof_cases ps i) as [->|[->| ->]]; tauto. Qed.
Lemma string_den rho ps t : string_block ps t -> den rho t = seqs (map (den rho) (prims ps)).
Proof. intros [p q ->|H|H]; [|apply (dchain_seqs rho)|apply (dchain_seqs rho)]. change (gate1 q (prim_mat p) = seqop (gate1 q (prim_mat p)) idop). rewrite seqop_id_r. reflexivity. Qed.
Lemma string_pprod rho ps : NoDup (map snd ps) -> Forall (fun pq => xyz (fst pq)) ps -> seqs (map (den rho) (prims ps)) = pprod (wof ps) (map snd ps).
Proof.
  intros N F. unfold pprod, prims. rewrite !map_map. f_equal. apply map_ext_in. intros [p q] I. cbn [fst snd den]. rewrite (wof_in ps p q N I). rewrite Forall_forall in F. destruct (F _ I) as [E|[E|E]]; cbn in E; subst; reflexivity.
Qed.
Lemma string_list ps t : string_block ps t -> Forall (fun pq => is_pauli (BPrim (fst pq) (snd pq)) = true) ps -> as_list t = Some (prims ps) /\ ps <> [].
Proof.
  intros S F. assert (L : forall bs, bs = prims ps -> filter is_pauli (flat_map primitive_blocks bs) = prims ps).
  { intros bs ->. clear S. induction F as [|[p q] ps E F IH]; [reflexivity|]. change (prims ((p, q) :: ps)) with (BPrim p q :: prims ps). change (flat_map primitive_blocks (BPrim p q :: prims ps)) with (BPrim p q :: flat_map primitive_blocks (prims ps)).
    cbn [fst snd] in E. cbn [filter]. rewrite E, IH. reflexivity. }
  unfold as_list, n_paulis. destruct S as [p q ->|H|H].
  - split; [|discriminate]. cbn [primitive_blocks filter]. inversion F as [|? ? E _]; subst. cbn [fst snd] in E. rewrite E. reflexivity.
  - cbn [primitive_blocks]. rewrite L by reflexivity. unfold prims at 1. rewrite map_length. destruct (Nat.leb_spec 2 (length ps)); [|lia]. split; [reflexivity|intros ->; simpl in H; lia].
  - cbn [primitive_blocks]. rewrite L by reflexivity. unfold prims at 1. rewrite map_length. destruct (Nat.leb_spec 2 (length ps)); [|lia]. split; [reflexivity|intros ->; simpl in H; lia].
Qed.
Lemma xyz_pauli ps : Forall (fun pq => xyz (fst pq)) ps -> Forall (fun pq => is_pauli (BPrim (fst pq) (snd pq)) = true) ps.
Proof. apply Forall_impl. intros [p q] [E|[E|E]]; cbn in *; subst; reflexivity. Qed.
Lemma neighbours_range ps lo m : neighbours ps -> In lo (map snd ps) -> In (lo + m)%nat (map snd ps) -> (forall q, In q (map snd ps) -> (lo <= q <= lo + m)%nat) ->
  NoDup (map snd ps) /\ Permutation (map snd ps) (seq lo (S m)).
Proof.
  intros [a P] I1 I2 B. assert (N : NoDup (map snd ps)) by (eapply Permutation_NoDup; [symmetry; exact P|apply seq_NoDup]). split; [exact N|].
  apply NoDup_Permutation; [exact N|apply seq_NoDup|]. intros q. rewrite in_seq. split; [intros I; specialize (B q I); lia|]. intros H.
  apply (Permutation_in _ (Permutation_sym P)). apply in_seq. apply (Permutation_in _ P), in_seq in I1. apply (Permutation_in _ P), in_seq in I2. lia.
Qed.
(** The number of Y operators of a term. *)
Definition ys (t : block) : nat := length (filter (fun b => match b with BPrim PY _ => true | _ => false end) (primitive_blocks t)).
Lemma ys_string ps t : string_block ps t -> ys t = ycount ps.
Proof.
  assert (L : length (filter (fun b => match b with BPrim PY _ => true | _ => false end) (flat_map primitive_blocks (prims ps))) = ycount ps).
  { induction ps as [|[p q] ps IH]; [reflexivity|]. change (flat_map primitive_blocks (prims ((p, q) :: ps))) with (BPrim p q :: flat_map primitive_blocks (prims ps)). unfold ycount in *. cbn [filter fst]. destruct p; cbn [is_y length]; rewrite IH; reflexivity. }
  intros [p q ->|H|H]; [|exact L|exact L]. unfold ys, ycount. cbn [primitive_blocks filter fst]. destruct p; reflexivity.
Qed.
Lemma sign_pow e n : e = 1%R \/ e = (-1)%R -> (e ^ n = 1 \/ e ^ n = -1)%R.
Proof. intros H. induction n as [|n IH]; [left; reflexivity|]. cbn [pow]. destruct H as [-> | ->], IH as [-> | ->]; [left|right|right|left]; ring. Qed.
Section Gates.
  Variable set_iter : list nat -> list nat.
  Lemma term_gates rho tc prm : term_ok rho tc -> exists bs, decompose_term set_iter (fst tc) (snd tc) prm = Some bs /\
    seqs (map (den rho) bs) = evo rho (ang rho prm) tc /\ seqs (map (den rho) (rev bs)) = evo rho ((-1) ^ ys (fst tc) * ang rho prm) tc.
  Proof.
    destruct tc as [t c]. intros (Hr & ps & S & F & Nb). cbn [fst snd] in *. destruct (real_ev _ Hr) as [k Ek].
    destruct (string_list ps t S (xyz_pauli ps F)) as [L Ne]. destruct (term_circ set_iter t ps c prm L Ne) as (lo & m & bs & I1 & I2 & B & E & D).
    destruct (neighbours_range ps lo m Nb I1 I2 B) as [N P]. exists bs. split; [exact E|].
    assert (Dt : den rho t = pprod (wof ps) (seq lo (Datatypes.S m))) by (rewrite (string_den rho ps t S), (string_pprod rho ps N F); apply pprod_perm; exact P).
    assert (Qi : seqop (den rho t) (den rho t) = idop) by (rewrite Dt; apply pprod_invol; [apply seq_NoDup|intros; apply wof_invol]).
    rewrite !(evo_rotop rho _ t c k Ek Qi). rewrite map_rev, D, circ_rev. rewrite !circ_den; try assumption; [|right; ring|left; reflexivity].
    rewrite (ys_string ps t S), <- Dt, (ang_fact rho c prm k Ek). rewrite !rotop_scale by (apply sign_pow; auto; right; ring). rewrite pow1. replace (- (1))%R with (-1)%R by ring. split; f_equal; field.
  Qed.
  Lemma decomp_gates rho l prm : Forall (term_ok rho) l -> exists bs, decompose_pauli_exp set_iter l prm = Some bs /\
    seqs (map (den rho) bs) = seqs (map (evo rho (ang rho prm)) l) /\ seqs (map (den rho) (rev bs)) = seqs (rev (map (fun tc => evo rho ((-1) ^ ys (fst tc) * ang rho prm) tc) l)).
  Proof.
    unfold decompose_pauli_exp. induction 1 as [|tc l H F IH].
    - exists []. repeat split; reflexivity.
    - destruct IH as (bs & E & D & R). destruct (term_gates rho tc prm H) as (b & Eb & Db & Rb). cbn [map]. rewrite oseq_cons, Eb.
      destruct (osequence (map (fun bs0 => decompose_term set_iter (fst bs0) (snd bs0) prm) l)) as [r|]; [|discriminate]. cbn in E. injection E as E. exists (b ++ bs). split; [cbn; rewrite E; reflexivity|].
      rewrite map_app, seqs_app, Db, D. split; [reflexivity|]. rewrite rev_app_distr, map_app, seqs_app, R, Rb. cbn [rev]. rewrite seqs_app. cbn [seqs]. rewrite seqop_id_r. reflexivity.
  Qed.
End Gates.
(** ** Product formulas *)
Definition step_ (rho : env) (x : R * (block * expr)) : Op := evo rho (fst x) (snd x).
Lemma seqs_times_eq {A B} (f : A -> Op) (g : B -> Op) k a b : seqs (map f a) = seqs (map g b) -> seqs (map f (times k a)) = seqs (map g (times k b)).
Proof. intros H. unfold times. induction k as [|k IH]; [reflexivity|]. cbn [repeat concat]. rewrite !map_app, !seqs_app, IH, H. reflexivity. Qed.
(** The symmetric second-order formula for the time [t]: half a step of each term but the last, a full step of the last, and the halves again in reverse order. *)
Definition sym2 (t : R) (outer : list (block * expr)) (lst : block * expr) : list (R * (block * expr)) :=
  map (fun tc => ((t / 2)%R, tc)) outer ++ [(t, lst)] ++ rev (map (fun tc => ((t / 2)%R, tc)) outer).
(** What is built: a term with an odd number of Y operators runs backwards in the second half. *)
Definition built2 (t : R) (outer : list (block * expr)) (lst : block * expr) : list (R * (block * expr)) :=
  map (fun tc => ((t / 2)%R, tc)) outer ++ [(t, lst)] ++ rev (map (fun tc => (((-1) ^ ys (fst tc) * (t / 2))%R, tc)) outer).
Definition steps2 (f : R -> list (block * expr) -> block * expr -> list (R * (block * expr))) (t : R) outer lst := times 10 (f (t / 10)%R outer lst).
Definition steps4 (f : R -> list (block * expr) -> block * expr -> list (R * (block * expr))) (t : R) outer lst :=
  times 10 (times 2 (steps2 f (p2 * (t / 10)) outer lst) ++ steps2 f ((1 - 4 * p2) * (t / 10)) outer lst ++ times 2 (steps2 f (p2 * (t / 10)) outer lst)).
Lemma ang_mul_r rho e r : ang rho (EMul e (ECst (RtoC r))) = (ang rho e * r)%R.
Proof. unfold ang. cbn [ev]. destruct (ev rho e) as [a b]. simpl. ring. Qed.
Lemma ang_mul_l rho e r : ang rho (EMul (ECst (RtoC r)) e) = (r * ang rho e)%R.
Proof. unfold ang. cbn [ev]. destruct (ev rho e) as [a b]. simpl. ring. Qed.
Lemma ang_delta rho e : ang rho (t_delta e) = (ang rho e / 10)%R.
Proof. unfold t_delta. rewrite ang_mul_r. unfold max_steps. simpl INR. field. Qed.
Section Trotter.
  Variable set_iter : list nat -> list nat.
  Lemma st2_gates rho outer lst prm : Forall (term_ok rho) (outer ++ [lst]) -> exists bs, st2 set_iter (outer ++ [lst]) prm = Some bs /\
    seqs (map (den rho) bs) = seqs (map (step_ rho) (steps2 built2 (ang rho prm) outer lst)).
  Proof.
    intros F. apply Forall_app in F as [F1 F2]. unfold st2. rewrite rev_app_distr. cbn [rev app]. rewrite rev_involutive.
    destruct (decomp_gates set_iter rho outer (EMul (t_delta prm) (ECst (RtoC (/ 2)))) F1) as (o & Eo & Do & Ro). destruct (decomp_gates set_iter rho [lst] (t_delta prm) F2) as (i & Ei & Di & _).
    rewrite Eo, Ei. eexists. split; [reflexivity|]. unfold steps2. change max_steps with 10%nat. apply seqs_times_eq. rewrite ang_mul_r, ang_delta in *.
    unfold built2. rewrite !map_app, !seqs_app, Do, Di, Ro, map_rev, !map_map. reflexivity.
  Qed.
  Lemma st4_gates rho outer lst prm : Forall (term_ok rho) (outer ++ [lst]) -> exists bs, st4 set_iter (outer ++ [lst]) prm = Some bs /\
    seqs (map (den rho) bs) = seqs (map (step_ rho) (steps4 built2 (ang rho prm) outer lst)).
  Proof.
    intros F. unfold st4. destruct (st2_gates rho outer lst (EMul (t_delta prm) (ECst (RtoC p2))) F) as (o & Eo & Do). destruct (st2_gates rho outer lst (EMul (ECst (RtoC (1 - 4 * p2))) (t_delta prm)) F) as (i & Ei & Di).
    rewrite Eo, Ei. eexists. split; [reflexivity|]. unfold steps4. change max_steps with 10%nat. apply seqs_times_eq. rewrite ang_mul_r, ang_mul_l, ang_delta in *. rewrite (Rmult_comm _ p2) in Do.
    rewrite !map_app, !seqs_app, Di. rewrite (seqs_times_eq (den rho) (step_ rho) 2 o _ Do). reflexivity.
  Qed.
End Trotter.
Lemma built_sym t outer lst : Forall (fun tc => Nat.even (ys (fst tc)) = true) outer -> built2 t outer lst = sym2 t outer lst.
Proof.
  intros F. unfold built2, sym2. f_equal. f_equal. f_equal. apply map_ext_in. intros tc I. rewrite Forall_forall in F. specialize (F tc I). f_equal.
  apply Nat.even_spec in F as [k ->]. rewrite pow_1_even. ring.
Qed.
(** ** Sums of commuting terms *)
Definition wsum (rho : env) (L : list (R * (block * expr))) : Op :=
  fold_right (fun x A => addop (scaleop (- Ci * RtoC (fst x)) (scaleop (ev rho (snd (snd x))) (den rho (fst (snd x))))) A) zeroop L.
Lemma wsum_app rho a b : wsum rho (a ++ b) = addop (wsum rho a) (wsum rho b).
Proof. induction a as [|x a IH]; simpl; [rewrite addop_zero_l; reflexivity|]. rewrite IH, addop_assoc. reflexivity. Qed.
Lemma addop_comm A B : addop A B = addop B A.
Proof. extensionality psi. extensionality x. unfold addop. ring. Qed.
Lemma wsum_rev rho a : wsum rho (rev a) = wsum rho a.
Proof. induction a as [|x a IH]; [reflexivity|]. cbn [rev]. rewrite wsum_app, IH. simpl. rewrite addop_zero_r. apply addop_comm. Qed.
Lemma wsum_const rho s l : wsum rho (map (fun tc => (s, tc)) l) = scaleop (- Ci * RtoC s) (weighted rho l).
Proof. induction l as [|tc l IH]; simpl; [rewrite scaleop_zero; reflexivity|]. rewrite IH, scaleop_add. reflexivity. Qed.
Lemma wsum_times rho k a s l : wsum rho a = scaleop (- Ci * RtoC s) (weighted rho l) -> wsum rho (times k a) = scaleop (- Ci * RtoC (INR k * s)) (weighted rho l).
Proof.
  intros H. unfold times. induction k as [|k IH].
  - extensionality psi. extensionality x. simpl. unfold zeroop, scaleop. rewrite Rmult_0_l. ring.
  - cbn [repeat concat]. rewrite wsum_app, IH, H. extensionality psi. extensionality x. unfold addop, scaleop. rewrite S_INR, Rmult_plus_distr_r, RtoC_plus, Rmult_1_l. ring.
Qed.
Lemma wsum_sym rho t outer lst : wsum rho (sym2 t outer lst) = scaleop (- Ci * RtoC t) (weighted rho (outer ++ [lst])).
Proof.
  unfold sym2. rewrite !wsum_app, wsum_rev, !wsum_const, weighted_app. change (wsum rho [(t, lst)]) with (wsum rho (map (fun tc => (t, tc)) [lst])). rewrite wsum_const.
  extensionality psi. extensionality x. unfold addop, scaleop. replace (RtoC t) with (RtoC (t / 2) + RtoC (t / 2)) by (rewrite <- RtoC_plus; f_equal; field). ring.
Qed.
Lemma wsum_steps4 rho t outer lst : wsum rho (steps4 sym2 t outer lst) = scaleop (- Ci * RtoC t) (weighted rho (outer ++ [lst])).
Proof.
  unfold steps4. set (l := outer ++ [lst]).
  assert (A : forall s, wsum rho (steps2 sym2 s outer lst) = scaleop (- Ci * RtoC s) (weighted rho l)).
  { intros s. unfold steps2. rewrite (wsum_times rho 10 _ (s / 10) l); [|apply wsum_sym]. f_equal. f_equal. f_equal. simpl INR. field. }
  rewrite (wsum_times rho 10 _ (t / 10) l); [f_equal; f_equal; f_equal; simpl INR; field|].
  rewrite !wsum_app, !(wsum_times rho 2 _ (p2 * (t / 10)) l) by apply A. rewrite A. extensionality psi. extensionality x. unfold addop, scaleop.
  transitivity (- Ci * (RtoC (INR 2 * (p2 * (t / 10))) + RtoC ((1 - 4 * p2) * (t / 10)) + RtoC (INR 2 * (p2 * (t / 10)))) * weighted rho l psi x); [ring|]. rewrite <- !RtoC_plus. f_equal. f_equal. f_equal. simpl INR. field.
Qed.
Lemma steps_sum rho fs L : NoDup fs -> (forall x, In x L -> forall q, In q (qubits (fst (snd x))) -> In q fs) ->
  (forall x y, In x L -> In y L -> seqop (den rho (fst (snd x))) (den rho (fst (snd y))) = seqop (den rho (fst (snd y))) (den rho (fst (snd x)))) ->
  seqs (map (step_ rho) L) = eop fs (wsum rho L).
Proof.
  intros N. induction L as [|[s [t c]] L IH]; intros Q Cm.
  - cbn [map seqs]. symmetry. apply eop_zero. exact N.
  - cbn [map seqs]. rewrite IH; [|intros; eapply Q; [right; eassumption|eassumption]|intros; apply Cm; right; assumption].
    change (step_ rho (s, (t, c))) with (evo rho s (t, c)). rewrite (evo_eop rho s t c fs N) by (apply (Q (s, (t, c))); left; reflexivity).
    assert (Lt : loc (inl fs) (den rho t)) by (eapply loc_mono; [|apply den_loc]; apply (Q (s, (t, c))); left; reflexivity).
    assert (Lw : loc (inl fs) (wsum rho L)).
    { assert (Q' : forall x, In x L -> forall q, In q (qubits (fst (snd x))) -> In q fs) by (intros; eapply Q; [right; eassumption|eassumption]). clear - Q'. induction L as [|y L IH]; [constructor|]. simpl. apply loc_add.
      - apply loc_scale, loc_scale. eapply loc_mono; [|apply den_loc]. apply Q'. left. reflexivity.
      - apply IH. intros; eapply Q'; [right; eassumption|eassumption]. }
    rewrite eop_add; [reflexivity|exact N|apply loc_scale, loc_scale; exact Lt|exact Lw|].
    rewrite !seqop_scale_l by (eapply loc_linear; exact Lw). rewrite !seqop_scale_r. f_equal. f_equal.
    change (commute (den rho t) (wsum rho L)). apply commute_sym.
    assert (C' : forall x, In x L -> commute (den rho (fst (snd x))) (den rho t)) by (intros x I; apply (Cm x (s, (t, c))); [right; exact I|left; reflexivity]).
    assert (Li : linear (den rho t)) by (eapply loc_linear; exact Lt). clear - C' Li. induction L as [|y L IH].
    + unfold commute. cbn. rewrite seqop_zero_l by exact Li. reflexivity.
    + change (wsum rho (y :: L)) with (addop (scaleop (- Ci * RtoC (fst y)) (scaleop (ev rho (snd (snd y))) (den rho (fst (snd y))))) (wsum rho L)). apply commute_add; [exact Li| |apply IH; intros; apply C'; right; assumption].
      apply commute_scale; [exact Li|]. apply commute_scale; [exact Li|]. apply C'. left. reflexivity.
Qed.
Lemma part_qubits x b : part x b -> forall q, In q (qubits x) -> In q (qubits b).
Proof.
  induction 1 as [b|x b e H IH|x bs b I H IH|x bs b I H IH]; intros q Hq; [exact Hq|apply IH; exact Hq| |]; cbn [qubits]; apply in_flat_map; exists b; auto.
Qed.
Lemma unroll_qubits g t c : In (t, c) (unroll_block_with_scaling g) -> forall q, In q (qubits t) -> In q (qubits g).
Proof. intros I. destruct (unroll_part g [] t c I) as [[]|[(t' & c' & [] & _)|P]]. apply part_qubits. exact P. Qed.
Lemma exact_sum rho g prm L : (forall x, In x L -> In (snd x) (unroll_block_with_scaling g)) ->
  (forall a b, In a (unroll_block_with_scaling g) -> In b (unroll_block_with_scaling g) -> seqop (den rho (fst a)) (den rho (fst b)) = seqop (den rho (fst b)) (den rho (fst a))) ->
  wsum rho L = scaleop (- Ci * RtoC (ang rho prm)) (weighted rho (unroll_block_with_scaling g)) -> seqs (map (step_ rho) L) = den rho (BEvo g prm).
Proof.
  intros H Cm W. rewrite den_evo, <- C48_sum, <- W. apply steps_sum; [apply NoDup_nodup| |].
  - intros x I q Hq. apply in_uqubits. specialize (H x I). destruct (snd x) as [t c] eqn:E. eapply unroll_qubits; [exact H|]. exact Hq.
  - intros x y Ix Iy. apply Cm; apply H; assumption.
Qed.
Lemma in_times {A} k (l : list A) x : In x (times k l) -> In x l.
Proof. unfold times. induction k as [|k IH]; [intros []|]. cbn [repeat concat]. rewrite in_app_iff. intros [I|I]; auto. Qed.
Lemma in_sym2 t outer lst x : In x (sym2 t outer lst) -> In (snd x) (outer ++ [lst]).
Proof.
  unfold sym2. rewrite !in_app_iff. intros [I|[[<-|[]]|I]]; [|right; left; reflexivity|apply in_rev in I]; apply in_map_iff in I as (tc & <- & I); left; exact I.
Qed.

(** C41.  One term: the gates built for [c * t] are exactly exp(-i time c t), for every Pauli string on neighbouring qubits and every real coefficient and time. *)
Theorem C41_term : forall set_iter rho tc prm, term_ok rho tc ->
  exists bs, decompose_pauli_exp set_iter [tc] prm = Some bs /\ den rho (BChain bs) = den rho (BEvo (BScale (fst tc) (snd tc)) prm).
Proof.
  intros si rho tc prm H. destruct (decomp_gates si rho [tc] prm) as (bs & E & D & _); [constructor; [exact H|constructor]|]. exists bs. split; [exact E|].
  change (dchain rho bs = den rho (BEvo (BScale (fst tc) (snd tc)) prm)). rewrite dchain_seqs, D. cbn [map seqs]. rewrite seqop_id_r. reflexivity.
Qed.
(** Several terms: the product of the exponentials, in the order of the list (first-order Trotter). *)
Theorem C41_first_order : forall set_iter rho l prm, Forall (term_ok rho) l ->
  exists bs, decompose_pauli_exp set_iter l prm = Some bs /\ den rho (BChain bs) = seqs (map (evo rho (ang rho prm)) l).
Proof.
  intros si rho l prm H. destruct (decomp_gates si rho l prm H) as (bs & E & D & _). exists bs. split; [exact E|]. change (dchain rho bs = seqs (map (evo rho (ang rho prm)) l)). rewrite dchain_seqs, D. reflexivity.
Qed.
(** All orders are exact when the terms commute (and, for the higher orders, no term but the last has an odd number of Y operators). *)
Theorem C41_commuting_exact : forall set_iter rho g prm order, let l := unroll_block_with_scaling g in
  Forall (term_ok rho) l -> (forall a b, In a l -> In b l -> seqop (den rho (fst a)) (den rho (fst b)) = seqop (den rho (fst b)) (den rho (fst a))) ->
  (order <> BASIC -> l <> [] /\ Forall (fun tc => Nat.even (ys (fst tc)) = true) (removelast l)) ->
  exists bs, lie_trotter_suzuki set_iter g prm order = Some bs /\ den rho (BChain bs) = den rho (BEvo g prm).
Proof.
  intros si rho g prm order l F Cm Hy.
  assert (Sp : order <> BASIC -> exists outer lst, l = outer ++ [lst] /\ Forall (fun tc => Nat.even (ys (fst tc)) = true) outer).
  { intros No. destruct (Hy No) as [Ne Fy]. exists (removelast l), (last l (BKron [], ECst (RtoC 0))). split; [apply app_removelast_last; exact Ne|exact Fy]. }
  unfold lie_trotter_suzuki. fold l. destruct order.
  - destruct (decomp_gates si rho l prm F) as (bs & E & D & _). exists bs. split; [exact E|]. change (dchain rho bs = den rho (BEvo g prm)). rewrite dchain_seqs, D.
    transitivity (seqs (map (step_ rho) (map (fun tc => (ang rho prm, tc)) l))); [rewrite map_map; reflexivity|]. apply exact_sum; [|exact Cm|].
    + intros x I. apply in_map_iff in I as (tc & <- & I). exact I.
    + apply wsum_const.
  - destruct Sp as (outer & lst & El & Fy); [discriminate|]. rewrite El in F. destruct (st2_gates si rho outer lst prm F) as (bs & E & D). rewrite <- El in E. exists bs. split; [exact E|].
    change (dchain rho bs = den rho (BEvo g prm)). rewrite dchain_seqs, D. unfold steps2. rewrite (built_sym _ outer lst Fy). apply exact_sum; [|exact Cm|].
    + intros x I. apply in_times, in_sym2 in I. fold l. rewrite El. exact I.
    + rewrite (wsum_times rho 10 _ (ang rho prm / 10) (outer ++ [lst])); [|apply wsum_sym]. fold l. rewrite El. f_equal. f_equal. f_equal. simpl INR. field.
  - destruct Sp as (outer & lst & El & Fy); [discriminate|]. rewrite El in F. destruct (st4_gates si rho outer lst prm F) as (bs & E & D). rewrite <- El in E. exists bs. split; [exact E|].
    change (dchain rho bs = den rho (BEvo g prm)). rewrite dchain_seqs, D. 
    assert (B : steps4 built2 (ang rho prm) outer lst = steps4 sym2 (ang rho prm) outer lst) by (unfold steps4, steps2; rewrite !(built_sym _ outer lst Fy); reflexivity).
    rewrite B. apply exact_sum; [|exact Cm|].
    + intros x I. unfold steps4 in I. apply in_times in I. rewrite !in_app_iff in I. fold l. rewrite El. destruct I as [I|[I|I]]; unfold steps2 in I; repeat apply in_times in I; apply in_sym2 in I; exact I.
    + fold l. rewrite El. apply wsum_steps4.
Qed.
(** The second- and fourth-order formulas, for terms that need not commute: ten repetitions of the symmetric formula, and the fourth-order composition of it. *)
Theorem C41_second_order : forall set_iter rho g prm outer lst, unroll_block_with_scaling g = outer ++ [lst] -> Forall (term_ok rho) (outer ++ [lst]) ->
  Forall (fun tc => Nat.even (ys (fst tc)) = true) outer ->
  exists bs, lie_trotter_suzuki set_iter g prm ST2 = Some bs /\ den rho (BChain bs) = seqs (map (step_ rho) (times 10 (sym2 (ang rho prm / 10) outer lst))).
Proof.
  intros si rho g prm outer lst El F Fy. destruct (st2_gates si rho outer lst prm F) as (bs & E & D). exists bs. unfold lie_trotter_suzuki. rewrite El. split; [exact E|].
  change (dchain rho bs = seqs (map (step_ rho) (times 10 (sym2 (ang rho prm / 10) outer lst)))). rewrite dchain_seqs, D. unfold steps2. rewrite (built_sym _ outer lst Fy). reflexivity.
Qed.
Theorem C41_fourth_order : forall set_iter rho g prm outer lst, unroll_block_with_scaling g = outer ++ [lst] -> Forall (term_ok rho) (outer ++ [lst]) ->
  Forall (fun tc => Nat.even (ys (fst tc)) = true) outer ->
  exists bs, lie_trotter_suzuki set_iter g prm ST4 = Some bs /\
    den rho (BChain bs) = seqs (map (step_ rho) (let d := (ang rho prm / 10)%R in let S2 := fun t => times 10 (sym2 (t / 10) outer lst) in
      times 10 (times 2 (S2 (p2 * d)%R) ++ S2 ((1 - 4 * p2) * d)%R ++ times 2 (S2 (p2 * d)%R)))).
Proof.
  intros si rho g prm outer lst El F Fy. destruct (st4_gates si rho outer lst prm F) as (bs & E & D). exists bs. unfold lie_trotter_suzuki. rewrite El. split; [exact E|].
  change (dchain rho bs = seqs (map (step_ rho) (steps4 sym2 (ang rho prm) outer lst))). rewrite dchain_seqs, D. unfold steps4, steps2. rewrite !(built_sym _ outer lst Fy). reflexivity.
Qed.
(** HamEvo.digital_decomposition of a generator the library recognises as commuting is exact, whatever order was asked for. *)
Theorem C41_digital_exact : forall set_iter rho g prm approximation, block_is_commuting_hamiltonian g = Some true -> Forall (term_ok rho) (unroll_block_with_scaling g) ->
  exists b, digital_decomposition set_iter g prm approximation = Some b /\ den rho b = den rho (BEvo g prm).
Proof.
  intros si rho g prm ap Hc F. destruct (C41_commuting_exact si rho g prm BASIC F) as (bs & E & D).
  - intros [a c] [b d] Ia Ib. exact (C47_expansion_commutes rho g Hc a c b d Ia Ib).
  - intros X. contradiction.
  - exists (BChain bs). unfold digital_decomposition. rewrite Hc, E. assert (Q : block_is_qubit_hamiltonian g = true) by (unfold block_is_commuting_hamiltonian in Hc; destruct (block_is_qubit_hamiltonian g); [reflexivity|discriminate]).
    rewrite Q. split; [reflexivity|exact D].
Qed.
(** What it builds when the terms do not commute: always the first-order product, unless the generator contains a ChainBlock. *)
Theorem C41_digital_first_order : forall set_iter rho g prm approximation c, block_is_commuting_hamiltonian g = Some c -> Forall (term_ok rho) (unroll_block_with_scaling g) ->
  exists b, digital_decomposition set_iter g prm approximation = Some b /\ den rho b = seqs (map (evo rho (ang rho prm)) (unroll_block_with_scaling g)).
Proof.
  intros si rho g prm ap c Hc F. destruct (C41_first_order si rho (unroll_block_with_scaling g) prm F) as (bs & E & D). exists (BChain bs). unfold digital_decomposition. rewrite Hc.
  assert (Q : block_is_qubit_hamiltonian g = true) by (unfold block_is_commuting_hamiltonian in Hc; destruct (block_is_qubit_hamiltonian g); [reflexivity|discriminate]).
  rewrite Q. unfold lie_trotter_suzuki. rewrite E. split; [reflexivity|exact D].
Qed.
(** ** What is built for the other strings *)
(** The requested order is used for the generators on which the commutation check raises (chains): the product formula is built as asked. *)
Theorem C41_requested_order : forall set_iter g prm approximation, block_is_qubit_hamiltonian g = true -> block_is_commuting_hamiltonian g = None ->
  digital_decomposition set_iter g prm approximation = option_map BChain (lie_trotter_suzuki set_iter g prm approximation).
Proof. intros si g prm ap Q N. unfold digital_decomposition. rewrite Q, N. reflexivity. Qed.
Example C41_requested_order_ex : let g := BChain [BPrim PX 0%nat; BPrim PZ 1%nat] in block_is_qubit_hamiltonian g = true /\ block_is_commuting_hamiltonian g = None /\
  forall prm, digital_decomposition (nodup Nat.eq_dec) g prm ST2 <> digital_decomposition (nodup Nat.eq_dec) g prm BASIC.
Proof.
  cbn zeta. split; [reflexivity|]. split; [reflexivity|]. intros prm H.
  apply (f_equal (option_map (fun b => match b with BChain l => length l | _ => 0%nat end))) in H. revert H. vm_compute. discriminate.
Qed.
(** Pauli strings with gaps, identities or number operators: every qubit from the lowest to the highest that does not carry X or Y gets a Z in the exponent. *)
Theorem C41_any_string : forall set_iter rho ps t c prm, string_block ps t -> NoDup (map snd ps) ->
  Forall (fun pq => is_pauli (BPrim (fst pq) (snd pq)) = true) ps -> snd (ev rho c) = 0%R ->
  exists lo hi w bs, In lo (map snd ps) /\ In hi (map snd ps) /\ (forall q, In q (map snd ps) -> (lo <= q <= hi)%nat) /\
    (forall i, (In (PX, i) ps -> w i = PX) /\ (In (PY, i) ps -> w i = PY) /\ (~ In (PX, i) ps -> ~ In (PY, i) ps -> w i = PZ)) /\
    decompose_pauli_exp set_iter [(t, c)] prm = Some bs /\
    den rho (BChain bs) = den rho (BEvo (BScale (BKron (map (fun i => BPrim (w i) i) (seq lo (S hi - lo)))) c) prm).
Proof.
  intros si rho ps t c prm S N F Hr. destruct (real_ev _ Hr) as [k Ek]. destruct (string_list ps t S F) as [L Ne]. destruct (term_circ si t ps c prm L Ne) as (lo & m & bs & I1 & I2 & B & E & D).
  exists lo, (lo + m)%nat, (wof ps), bs. repeat split; try assumption; try (apply B; assumption).
  - intros I. rewrite (wof_in ps PX i N I). reflexivity.
  - intros I. rewrite (wof_in ps PY i N I). reflexivity.
  - intros A1 A2. clear - A1 A2. induction ps as [|[p q] ps IH]; [reflexivity|]. cbn [wof]. destruct (Nat.eqb_spec i q) as [->|]; [|apply IH; intros I; [apply A1|apply A2]; right; exact I].
    destruct p; try reflexivity; exfalso; [apply A1|apply A2]; left; reflexivity.
  - unfold decompose_pauli_exp. cbn [map fst snd]. rewrite oseq_cons, E. cbn. rewrite app_nil_r. reflexivity.
  - change (dchain rho bs = evo rho (ang rho prm) (BKron (map (fun i => BPrim (wof ps i) i) (seq lo (Datatypes.S (lo + m) - lo))), c)). rewrite dchain_seqs, D.
    replace (Datatypes.S (lo + m) - lo)%nat with (Datatypes.S m) by lia.
    assert (Dk : den rho (BKron (map (fun i => BPrim (wof ps i) i) (seq lo (Datatypes.S m)))) = pprod (wof ps) (seq lo (Datatypes.S m))).
    { change (dchain rho (map (fun i => BPrim (wof ps i) i) (seq lo (Datatypes.S m))) = pprod (wof ps) (seq lo (Datatypes.S m))). rewrite dchain_seqs, map_map. reflexivity. }
    rewrite (evo_rotop rho _ _ c k Ek) by (rewrite Dk; apply pprod_invol; [apply seq_NoDup|intros; apply wof_invol]).
    rewrite circ_den; try assumption; [|left; reflexivity]. rewrite Dk, (ang_fact rho c prm k Ek), pow1, rotop_scale by auto. f_equal. field.
Qed.
Definition wrong (t : block) : Prop := exists rho prm b,
  block_is_commuting_hamiltonian t = Some true /\ digital_decomposition (nodup Nat.eq_dec) t prm BASIC = Some b /\ den rho b <> den rho (BEvo t prm).
Lemma x_eq q psi x : gate1 q (prim_mat PX) psi x = psi (upd x q (negb (x q))).
Proof. rewrite gate1_eq. destruct (x q); cbn [prim_mat mat2 negb]; ring. Qed.
Definition rho0 : env := fun _ => 0%R.
Definition quarter : expr := ECst (RtoC (PI / 2)).
Lemma evo_plain rho t prm : den rho (BEvo t prm) = evo rho (ang rho prm) (t, ECst (RtoC 1)).
Proof.
  rewrite (evo_eop rho _ t _ (uqubits t)); [|apply NoDup_nodup|intros q I; apply in_uqubits; exact I]. rewrite den_evo. cbn [ev]. rewrite scaleop_one. reflexivity.
Qed.
Lemma wrong_by t bs Q psi x : block_is_commuting_hamiltonian t = Some true -> lie_trotter_suzuki (nodup Nat.eq_dec) t quarter BASIC = Some bs -> 
  seqop (den rho0 t) (den rho0 t) = idop -> seqs (map (den rho0) bs) = rotop (PI / 2) Q -> Q psi x <> den rho0 t psi x -> wrong t.
Proof.
  intros Hc E I D Ne. exists rho0, quarter, (BChain bs). split; [exact Hc|]. split.
  - unfold digital_decomposition. rewrite Hc, E. assert (H : block_is_qubit_hamiltonian t = true) by (unfold block_is_commuting_hamiltonian in Hc; destruct (block_is_qubit_hamiltonian t); [reflexivity|discriminate]). rewrite H. reflexivity.
  - intros F. change (dchain rho0 bs = den rho0 (BEvo t quarter)) in F. rewrite dchain_seqs, D, evo_plain, (evo_rotop rho0 _ t _ 1) in F by (reflexivity || exact I).
    change (ang rho0 quarter) with (PI / 2)%R in F. rewrite Rmult_1_r in F. apply (f_equal (fun A : Op => A psi x)) in F. unfold rotop, addop, scaleop, idop in F. rewrite cos_PI2, sin_PI2 in F. apply Ne.
    assert (G : - Ci * RtoC 1 * Q psi x = - Ci * RtoC 1 * den rho0 t psi x).
    { transitivity (RtoC 0 * psi x + - Ci * RtoC 1 * Q psi x); [ring|]. rewrite F. ring. }
    transitivity (Ci * (- Ci * RtoC 1 * Q psi x)); [|rewrite G]; generalize (Q psi x) (den rho0 t psi x); intros [a b] [a' b']; unfold Ci; apply Ceq; simpl; ring.
Qed.
Lemma neg_one_ne : - RtoC 1 <> RtoC 1.
Proof. intros H. apply (f_equal fst) in H. simpl in H. lra. Qed.
(** A gap: X(0) X(2) is exponentiated as X(0) Z(1) X(2). *)
Theorem C41_gap_refuted : wrong (BKron [BPrim PX 0%nat; BPrim PX 2%nat]).
Proof.
  destruct (term_circ (nodup Nat.eq_dec) (BKron [BPrim PX 0; BPrim PX 2])%nat [(PX, 0); (PX, 2)]%nat (ECst (RtoC 1)) quarter) as (lo & m & bs & I1 & I2 & B & E & D); [reflexivity|discriminate|].
  assert (Hlo : lo = 0%nat) by (specialize (B 0%nat (or_introl eq_refl)); lia). assert (Hm : m = 2%nat) by (subst; specialize (B 2%nat (or_intror (or_introl eq_refl))); simpl in I2; lia). subst.
  apply (wrong_by _ bs (pprod (wof [(PX, 0); (PX, 2)]%nat) [0; 1; 2]%nat) (fun x => if x 1%nat then RtoC 1 else RtoC 0) (fun _ => true)).
  - reflexivity.
  - unfold lie_trotter_suzuki, decompose_pauli_exp. change (unroll_block_with_scaling (BKron [BPrim PX 0%nat; BPrim PX 2%nat])) with [(BKron [BPrim PX 0%nat; BPrim PX 2%nat], ECst (RtoC 1))]. cbn [map fst snd]. rewrite oseq_cons, E. cbn. rewrite app_nil_r. reflexivity.
  - rewrite (string_den rho0 [(PX, 0); (PX, 2)]%nat) by (apply SB_kron; simpl; lia). rewrite string_pprod by (repeat constructor; simpl; intuition (discriminate || (unfold xyz; auto))).
    apply pprod_invol; [repeat constructor; simpl; intuition discriminate|intros; apply wof_invol].
  - rewrite D, circ_den; [|left; reflexivity|repeat constructor; simpl; intuition discriminate|simpl; intros q [<-|[<-|[]]]; lia]. rewrite pow1, rotop_scale by auto. rewrite (ang_fact rho0 (ECst (RtoC 1)) quarter 1 eq_refl). change (ang rho0 quarter) with (PI / 2)%R. f_equal. field.
  - unfold pprod. cbn [map seqs wof Nat.eqb eff]. unfold seqop, idop. rewrite x_eq, z_eq, x_eq.
    change (den rho0 (BKron [BPrim PX 0%nat; BPrim PX 2%nat]) (fun x : asg => if x 1%nat then RtoC 1 else RtoC 0) (fun _ : nat => true)) with (gate1 2 (prim_mat PX) (gate1 0 (prim_mat PX) (fun x : asg => if x 1%nat then RtoC 1 else RtoC 0)) (fun _ : nat => true)).
    rewrite !x_eq. cbn [upd Nat.eqb negb]. unfold upd. cbn [Nat.eqb]. apply neg_one_ne.
Qed.
(** An identity factor: X(0) I(1) is exponentiated as X(0) Z(1). *)
Theorem C41_identity_refuted : wrong (BKron [BPrim PX 0%nat; BPrim PI_ 1%nat]).
Proof.
  destruct (term_circ (nodup Nat.eq_dec) (BKron [BPrim PX 0; BPrim PI_ 1])%nat [(PX, 0); (PI_, 1)]%nat (ECst (RtoC 1)) quarter) as (lo & m & bs & I1 & I2 & B & E & D); [reflexivity|discriminate|].
  assert (Hlo : lo = 0%nat) by (specialize (B 0%nat (or_introl eq_refl)); lia). assert (Hm : m = 1%nat) by (subst; specialize (B 1%nat (or_intror (or_introl eq_refl))); simpl in I2; lia). subst.
  assert (Di : den rho0 (BKron [BPrim PX 0%nat; BPrim PI_ 1%nat]) = gate1 0 (prim_mat PX)).
  { change (seqop (gate1 0 (prim_mat PX)) (seqop (gate1 1 (prim_mat PI_)) idop) = gate1 0 (prim_mat PX)). rewrite (gate1_id 1 (prim_mat PI_)), !seqop_id_r; [reflexivity|]. intros [|] [|]; reflexivity. }
  apply (wrong_by _ bs (pprod (wof [(PX, 0); (PI_, 1)]%nat) [0; 1]%nat) (fun x => if x 1%nat then RtoC 1 else RtoC 0) (fun _ => true)).
  - reflexivity.
  - unfold lie_trotter_suzuki, decompose_pauli_exp. change (unroll_block_with_scaling (BKron [BPrim PX 0%nat; BPrim PI_ 1%nat])) with [(BKron [BPrim PX 0%nat; BPrim PI_ 1%nat], ECst (RtoC 1))]. cbn [map fst snd]. rewrite oseq_cons, E. cbn. rewrite app_nil_r. reflexivity.
  - rewrite Di. apply prim_invol. unfold involutive. tauto.
  - rewrite D, circ_den; [|left; reflexivity|repeat constructor; simpl; intuition discriminate|simpl; intros q [<-|[<-|[]]]; lia]. rewrite pow1, rotop_scale by auto. rewrite (ang_fact rho0 (ECst (RtoC 1)) quarter 1 eq_refl). change (ang rho0 quarter) with (PI / 2)%R. f_equal. field.
  - rewrite Di. unfold pprod. cbn [map seqs wof Nat.eqb eff]. unfold seqop, idop. rewrite z_eq, !x_eq. unfold upd. cbn [Nat.eqb negb]. apply neg_one_ne.
Qed.
(** A tensor product with a single factor: kron(X(0)) is exponentiated as Z(0). *)
Theorem C41_single_kron_refuted : wrong (BKron [BPrim PX 0%nat]).
Proof.
  assert (Di : den rho0 (BKron [BPrim PX 0%nat]) = gate1 0 (prim_mat PX)) by (change (seqop (gate1 0 (prim_mat PX)) idop = gate1 0 (prim_mat PX)); apply seqop_id_r).
  apply (wrong_by _ [BRot RZ_ 0%nat (fact_ (ECst (RtoC 1)) quarter)] (gate1 0 (prim_mat PZ)) (fun x => RtoC 1) (fun _ => true)).
  - reflexivity.
  - reflexivity.
  - rewrite Di. apply prim_invol. unfold involutive. tauto.
  - cbn [map seqs]. rewrite seqop_id_r. change (gate1 0 (rot_mat RZ_ (ang rho0 (fact_ (ECst (RtoC 1)) quarter))) = rotop (PI / 2) (gate1 0 (prim_mat PZ))). rewrite rz_rotop, (ang_fact rho0 (ECst (RtoC 1)) quarter 1 eq_refl). change (ang rho0 quarter) with (PI / 2)%R. f_equal. field.
  - rewrite Di, z_eq, x_eq. apply neg_one_ne.
Qed.
(** The number operator: N(0) is exponentiated as Z(0). *)
Lemma evo_number t : evo rho0 t (BPrim (PN true) 0%nat, ECst (RtoC 1)) = seqop (rotop (t / 2) idop) (rotop (- (t / 2)) (gate1 0 (prim_mat PZ))).
Proof.
  rewrite (evo_eop rho0 t _ _ [0%nat]); [|repeat constructor; intros []|intros q I; exact I]. cbn [ev den]. rewrite scaleop_one.
  assert (Nd : NoDup [0%nat]) by (repeat constructor; intros []). assert (Lz : loc (inl [0%nat]) (gate1 0 (prim_mat PZ))) by (constructor; auto).
  rewrite <- (eop_invol [0%nat] idop (t / 2)), <- (eop_invol [0%nat] (gate1 0 (prim_mat PZ)) (- (t / 2))); try assumption; try (constructor; fail); try reflexivity; [|apply prim_invol; unfold involutive; tauto].
  rewrite eop_add; [|exact Nd|apply loc_scale; constructor|apply loc_scale; exact Lz|].
  - f_equal. extensionality psi. extensionality x. unfold scaleop, addop, idop. rewrite !gate1_diag by reflexivity. replace (RtoC t) with (RtoC (t / 2) + RtoC (t / 2)) by (rewrite <- RtoC_plus; f_equal; field). rewrite RtoC_opp.
    destruct (x 0%nat); cbn [prim_mat mat2]; ring.
  - rewrite seqop_scale_l by (apply (loc_linear (inl [0%nat])), loc_scale; exact Lz). rewrite seqop_id_l. rewrite (seqop_scale_r _ _ idop), seqop_id_r. reflexivity.
Qed.
Theorem C41_number_refuted : wrong (BPrim (PN true) 0%nat).
Proof.
  exists rho0, (ECst (RtoC PI)), (BChain [BRot RZ_ 0%nat (fact_ (ECst (RtoC 1)) (ECst (RtoC PI)))]). split; [reflexivity|]. split; [reflexivity|]. intros F.
  change (seqop (gate1 0 (rot_mat RZ_ (ang rho0 (fact_ (ECst (RtoC 1)) (ECst (RtoC PI)))))) idop = den rho0 (BEvo (BPrim (PN true) 0) (ECst (RtoC PI)))) in F.
  rewrite evo_plain in F. change (ang rho0 (ECst (RtoC PI))) with PI in F. rewrite evo_number, seqop_id_r, rz_rotop, (ang_fact rho0 (ECst (RtoC 1)) (ECst (RtoC PI)) 1 eq_refl) in F. change (ang rho0 (ECst (RtoC PI))) with PI in F.
  replace (2 * (PI * 1) / 2)%R with PI in F by field. apply (f_equal (fun A : Op => A (fun _ => RtoC 1) (fun _ => false))) in F. unfold rotop, seqop, addop, scaleop, idop in F. rewrite !z_eq, cos_neg, sin_neg, cos_PI, sin_PI, cos_PI2, sin_PI2 in F.
  apply (f_equal fst) in F. simpl in F. lra.
Qed.
(** The higher orders drop terms with an odd number of Y operators even when all terms commute: for Y(0) + Z(1) the second order gives the evolution of Z(1) alone. *)
Definition yz : block := BAdd [BPrim PY 0%nat; BPrim PZ 1%nat].
Lemma yz_ok : Forall (term_ok rho0) [(BPrim PY 0%nat, ECst (RtoC 1)); (BPrim PZ 1%nat, ECst (RtoC 1))].
Proof.
  constructor; [|constructor; [|constructor]]; (split; [reflexivity|]).
  - exists [(PY, 0%nat)]. split; [apply SB_one; reflexivity|]. split; [repeat (apply Forall_cons; [unfold xyz; cbn; auto|]); apply Forall_nil|]. exists 0%nat. reflexivity.
  - exists [(PZ, 1%nat)]. split; [apply SB_one; reflexivity|]. split; [repeat (apply Forall_cons; [unfold xyz; cbn; auto|]); apply Forall_nil|]. exists 1%nat. reflexivity.
Qed.
Lemma yz_commute a b : In a (unroll_block_with_scaling yz) -> In b (unroll_block_with_scaling yz) -> seqop (den rho0 (fst a)) (den rho0 (fst b)) = seqop (den rho0 (fst b)) (den rho0 (fst a)).
Proof.
  intros [<-|[<-|[]]] [<-|[<-|[]]]; try reflexivity; cbn [fst den]; apply gate1_comm; discriminate.
Qed.
Theorem C41_odd_y_refuted : Forall (term_ok rho0) (unroll_block_with_scaling yz) /\
  (forall prm, exists bs, lie_trotter_suzuki (nodup Nat.eq_dec) yz prm ST2 = Some bs /\ den rho0 (BChain bs) = den rho0 (BEvo (BPrim PZ 1%nat) prm)) /\
  den rho0 (BEvo yz quarter) <> den rho0 (BEvo (BPrim PZ 1%nat) quarter).
Proof.
  split; [exact yz_ok|]. split.
  - intros prm. destruct (st2_gates (nodup Nat.eq_dec) rho0 [(BPrim PY 0%nat, ECst (RtoC 1))] (BPrim PZ 1%nat, ECst (RtoC 1)) prm yz_ok) as (bs & E & D). exists bs. split; [exact E|].
    change (dchain rho0 bs = den rho0 (BEvo (BPrim PZ 1%nat) prm)). rewrite dchain_seqs, D.
    assert (W : forall t, wsum rho0 (built2 t [(BPrim PY 0%nat, ECst (RtoC 1))] (BPrim PZ 1%nat, ECst (RtoC 1))) = scaleop (- Ci * RtoC t) (weighted rho0 [(BPrim PZ 1%nat, ECst (RtoC 1))])).
    { intros t. extensionality psi. extensionality x. unfold wsum, weighted, built2. cbn [map app rev fold_right fst snd]. unfold addop, scaleop, zeroop. change (ys (BPrim PY 0)) with 1%nat. rewrite pow_1. replace (-1 * (t / 2))%R with (- (t / 2))%R by ring. rewrite RtoC_opp. ring. }
    assert (In2 : forall x, In x (steps2 built2 (ang rho0 prm) [(BPrim PY 0%nat, ECst (RtoC 1))] (BPrim PZ 1%nat, ECst (RtoC 1))) -> In (snd x) (unroll_block_with_scaling yz)).
    { intros x I. unfold steps2 in I. apply in_times in I. destruct I as [<-|[<-|[<-|[]]]]; cbn; auto. }
    rewrite (steps_sum rho0 [0; 1]%nat); [|repeat constructor; simpl; intuition discriminate|intros x I; apply In2 in I; destruct I as [<-|[<-|[]]]; simpl; intuition|intros x y Ix Iy; apply yz_commute; apply In2; assumption].
    unfold steps2. rewrite (wsum_times rho0 10 _ (ang rho0 prm / 10) [(BPrim PZ 1%nat, ECst (RtoC 1))]) by apply W. rewrite den_evo.
    replace (INR 10 * (ang rho0 prm / 10))%R with (ang rho0 prm) by (simpl INR; field).
    assert (Ww : weighted rho0 [(BPrim PZ 1%nat, ECst (RtoC 1))] = den rho0 (BPrim PZ 1%nat)) by (unfold weighted; cbn [fold_right fst snd ev]; rewrite addop_zero_r, scaleop_one; reflexivity). rewrite Ww.
    apply eop_indep; [repeat constructor; simpl; intuition discriminate|repeat constructor; intros []|apply loc_scale; constructor; simpl; intros q [<-|[]]; unfold inl; simpl; auto|apply loc_scale; constructor; auto].
  - assert (Ey : den rho0 (BEvo yz quarter) = seqop (rotop (PI / 2) (gate1 0 (prim_mat PY))) (rotop (PI / 2) (gate1 1 (prim_mat PZ)))).
    { rewrite <- (exact_sum rho0 yz quarter (map (fun tc => (ang rho0 quarter, tc)) (unroll_block_with_scaling yz))); [|intros x I; apply in_map_iff in I as (tc & <- & I); exact I|exact yz_commute|apply wsum_const].
      change (seqop (evo rho0 (PI / 2) (BPrim PY 0%nat, ECst (RtoC 1))) (seqop (evo rho0 (PI / 2) (BPrim PZ 1%nat, ECst (RtoC 1))) idop) = seqop (rotop (PI / 2) (gate1 0 (prim_mat PY))) (rotop (PI / 2) (gate1 1 (prim_mat PZ)))).
      rewrite seqop_id_r, !(evo_rotop rho0 _ _ (ECst (RtoC 1)) 1) by (reflexivity || (apply prim_invol; unfold involutive; tauto)). rewrite Rmult_1_r. reflexivity. }
    rewrite Ey, evo_plain, (evo_rotop rho0 _ _ (ECst (RtoC 1)) 1) by (reflexivity || (apply prim_invol; unfold involutive; tauto)). change (ang rho0 quarter * 1)%R with (PI / 2 * 1)%R. rewrite Rmult_1_r. intros F.
    apply (f_equal (fun A : Op => A (fun x => if x 0%nat then RtoC 1 else RtoC 0) (fun _ => true))) in F. cbn [den] in F. unfold seqop, rotop, addop, scaleop, idop in F. rewrite !z_eq, gate1_eq, cos_PI2, sin_PI2 in F. unfold upd in F. cbn [Nat.eqb prim_mat mat2] in F.
    apply (f_equal snd) in F. simpl in F. lra.
Qed.
(** The requested order is ignored for non-commuting generators: the check's answer is discarded. *)
Definition xz : block := BAdd [BPrim PX 0%nat; BPrim PZ 0%nat].
Theorem C41_order_ignored_refuted : block_is_commuting_hamiltonian xz = Some false /\
  forall prm, digital_decomposition (nodup Nat.eq_dec) xz prm ST4 = digital_decomposition (nodup Nat.eq_dec) xz prm BASIC /\
    digital_decomposition (nodup Nat.eq_dec) xz prm ST4 <> option_map BChain (lie_trotter_suzuki (nodup Nat.eq_dec) xz prm ST4).
Proof.
  split; [reflexivity|]. intros prm. split; [reflexivity|]. intros H.
  assert (L : option_map (@length block) (lie_trotter_suzuki (nodup Nat.eq_dec) xz prm BASIC) = option_map (@length block) (lie_trotter_suzuki (nodup Nat.eq_dec) xz prm ST4)).
  { change (digital_decomposition (nodup Nat.eq_dec) xz prm ST4) with (option_map BChain (lie_trotter_suzuki (nodup Nat.eq_dec) xz prm BASIC)) in H. clear -H.
    destruct (lie_trotter_suzuki (nodup Nat.eq_dec) xz prm BASIC), (lie_trotter_suzuki (nodup Nat.eq_dec) xz prm ST4); cbn in *; try discriminate; try reflexivity. injection H as ->. reflexivity. }
  assert (L2 : match option_map (@length block) (lie_trotter_suzuki (nodup Nat.eq_dec) xz prm ST4) with Some k => Nat.leb 5 k | None => true end = true) by reflexivity.
  rewrite <- L in L2. discriminate L2.
Qed.
(** The hypotheses are met: 0.5 X(1) Y(2) Z(3) + 2 X(1), a commuting Hamiltonian written out of order. *)
Example C41_case : forall prm, exists b,
  digital_decomposition (nodup Nat.eq_dec) (BAdd [BScale (BKron [BPrim PZ 3; BPrim PX 1; BPrim PY 2]%nat) (ECst (RtoC (/ 2))); BScale (BPrim PX 1%nat) (ECst (RtoC 2))]) prm ST4 = Some b /\
  den rho0 b = den rho0 (BEvo (BAdd [BScale (BKron [BPrim PZ 3; BPrim PX 1; BPrim PY 2]%nat) (ECst (RtoC (/ 2))); BScale (BPrim PX 1%nat) (ECst (RtoC 2))]) prm).
Proof.
  intros prm. apply C41_digital_exact; [reflexivity|]. constructor; [|constructor; [|constructor]]; (split; [reflexivity|]).
  - exists [(PZ, 3); (PX, 1); (PY, 2)]%nat. split; [apply SB_kron; simpl; lia|]. split; [repeat (apply Forall_cons; [unfold xyz; cbn; auto|]); apply Forall_nil|]. exists 1%nat. cbn. apply perm_trans with [1; 3; 2]%nat; [apply perm_swap|apply perm_skip, perm_swap].
  - exists [(PX, 1)]%nat. split; [apply SB_one; reflexivity|]. split; [repeat (apply Forall_cons; [unfold xyz; cbn; auto|]); apply Forall_nil|]. exists 1%nat. reflexivity.
Qed.
Print Assumptions C41_term.
Print Assumptions C41_first_order.
Print Assumptions C41_commuting_exact.
Print Assumptions C41_second_order.
Print Assumptions C41_fourth_order.
Print Assumptions C41_digital_exact.
Print Assumptions C41_digital_first_order.
Print Assumptions C41_requested_order.
Print Assumptions C41_any_string.
Print Assumptions C41_gap_refuted.
Print Assumptions C41_identity_refuted.
Print Assumptions C41_single_kron_refuted.
Print Assumptions C41_number_refuted.
Print Assumptions C41_odd_y_refuted.
Print Assumptions C41_order_ignored_refuted.

(** The five second-order steps of the fourth-order formula have the fractions [f] of the time: four times [p2] and once [1 - 4 * p2].  They sum to
    one and their cubes sum to zero, which is what makes the error of third order vanish. *)
Theorem C41_fourth_order_fractions : let f := [p2; p2; 1 - 4 * p2; p2; p2]%R in
  fold_right Rplus 0%R f = 1%R /\ fold_right Rplus 0%R (map (fun x => x * x * x)%R f) = 0%R.
Proof.
  cbv zeta. cbn [fold_right map]. split; [ring|]. unfold p2. set (c := Rpower 4 (1 / 3)).
  assert (C3 : (c * c * c = 4)%R) by (unfold c; rewrite <- !Rpower_plus; replace (1 / 3 + 1 / 3 + 1 / 3)%R with 1%R by field; apply Rpower_1; lra).
  assert (NZ : (4 - c <> 0)%R) by (intros E; assert (c = 4)%R by lra; rewrite H in C3; lra).
  replace (1 - 4 * / (4 - c))%R with (- c * / (4 - c))%R by (field; exact NZ). set (p := (/ (4 - c))%R).
  replace (_ + _)%R with (p * p * p * (4 - c * c * c))%R by ring. rewrite C3. ring.
Qed.
Print Assumptions C41_fourth_order_fractions.
