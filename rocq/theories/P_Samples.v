(** C82: expectation values computed from given samples. *)
From Coq Require Import String Reals List Arith Bool Lia Lra FunctionalExtensionality Permutation.
From Coquelicot Require Import Coquelicot.
From Coq Require Import List.
From Verif Require Import S_Ops L_Ops M_QubitSupport M_Block S_Den L_Den L_Loc L_Adj L_Gates M_BlockOps M_Transpile M_PSR S_PSR P_PSR P_Dagger S_State L_Inner M_Pauli P_Pauli M_Measure P_Measure P_Tomography.
From Verif Require Import M_Samples.
Import ListNotations.
Open Scope R_scope.

(** * Specification *)
(** Observables in the Z basis: (scaled) products of Z operators on qubits below [n], and (scaled) sums of such observables; the scales
    have real values. *)
Definition real_valued (rho : env) (e : expr) : Prop := ev rho e = RtoC (ang rho e).
Inductive zbasis (n : nat) (rho : env) : block -> Prop :=
| ZBstring t qs : zstring t qs -> qs <> [] -> (forall q, In q qs -> (q < n)%nat) -> zbasis n rho t
| ZBscaled t qs e : zstring t qs -> qs <> [] -> (forall q, In q qs -> (q < n)%nat) -> real_valued rho e -> zbasis n rho (BScale t e)
| ZBsum bs : bs <> [] -> (forall b, In b bs -> zbasis n rho b) -> zbasis n rho (BAdd bs)
| ZBscaled_sum bs e : bs <> [] -> (forall b, In b bs -> zbasis n rho b) -> real_valued rho e -> zbasis n rho (BScale (BAdd bs) e).
(** A sample of [T] shots on [n] qubits. *)
Definition histogram (n : nat) (T : R) (c : counter) : Prop :=
  counts_ok c /\ total c = T /\ forall k v, In (k, v) c -> length k = n.
(** The mean, over the shots of a sample, of the value the observable has in the basis state that was read. *)
Definition shot_mean (n : nat) (T : R) (rho : env) (o : block) (c : counter) : C :=
  csum (fun kv : list bool * R => RtoC (snd kv / T) * expval n (ket (seq 0 n) (fst kv)) (den rho o))%C c.
(** An operator that is diagonal in the computational basis. *)
Definition diagonal (A : Op) : Prop := exists f, forall psi x, A psi x = (f x * psi x)%C.

(** * Acceptance *)
Lemma zstring_prims t qs : zstring t qs -> primitive_blocks t = map (BPrim PZ) qs.
Proof. destruct 1; cbn; try reflexivity; induction qs as [|q qs IH]; cbn; [reflexivity|f_equal; exact IH|reflexivity|f_equal; exact IH]. Qed.
Lemma collect_app l l' : collect_paulis l <> None -> collect_paulis l' <> None -> collect_paulis (l ++ l') <> None.
Proof.
  induction l as [|b l IH]; intros H H'; [exact H'|]. cbn [app collect_paulis] in *. destruct (is_pauli b); [|congruence].
  destruct (collect_paulis l) as [r|]; [|exfalso; apply H; reflexivity]. specialize (IH ltac:(discriminate) H'). destruct (collect_paulis (l ++ l')); [discriminate|congruence].
Qed.
Lemma collect_flat bs : (forall b, In b bs -> block_is_qubit_hamiltonian b = true) -> collect_paulis (flat_map primitive_blocks bs) <> None.
Proof.
  induction bs as [|b bs IH]; intros H; [discriminate|]. cbn [flat_map]. apply collect_app.
  - specialize (H b (or_introl eq_refl)). unfold block_is_qubit_hamiltonian, get_pauli_blocks in H. destruct (collect_paulis (primitive_blocks b)); [discriminate|discriminate H].
  - apply IH. intros x Hx. apply H. right. exact Hx.
Qed.
Lemma diag_ham b : is_diag_pauli b = true -> block_is_qubit_hamiltonian b = true.
Proof. intros H. destruct b; cbn [is_diag_pauli] in H; apply andb_prop in H as [H _]; exact H. Qed.
Lemma ham_flat bs : (forall b, In b bs -> block_is_qubit_hamiltonian b = true) -> match collect_paulis (flat_map primitive_blocks bs) with Some _ => true | None => false end = true.
Proof. intros H. pose proof (collect_flat bs H) as Q. destruct (collect_paulis _); [reflexivity|congruence]. Qed.
Lemma diag_list bs : (forall b, In b bs -> is_diag_pauli b = true) ->
  is_diag_pauli (BChain bs) = true /\ is_diag_pauli (BKron bs) = true /\ is_diag_pauli (BAdd bs) = true.
Proof.
  intros H. assert (F : forallb is_diag_pauli bs = true) by (apply forallb_forall; exact H).
  pose proof (ham_flat bs (fun b Hb => diag_ham b (H b Hb))) as Q.
  cbn [is_diag_pauli]. unfold block_is_qubit_hamiltonian, get_pauli_blocks. cbn [primitive_blocks]. rewrite F, Q. auto.
Qed.
Lemma diag_scale b e : is_diag_pauli b = true -> is_diag_pauli (BScale b e) = true.
Proof. intros H. pose proof (diag_ham b H) as Q. unfold block_is_qubit_hamiltonian, get_pauli_blocks in Q. cbn [is_diag_pauli]. unfold block_is_qubit_hamiltonian, get_pauli_blocks. cbn [primitive_blocks]. rewrite Q. exact H. Qed.
Lemma zstring_diag t qs : zstring t qs -> is_diag_pauli t = true.
Proof.
  intros H. destruct H; [reflexivity| |].
  - apply (diag_list (map (BPrim PZ) qs)). intros b Hb. apply in_map_iff in Hb as (q & <- & _). reflexivity.
  - apply (diag_list (map (BPrim PZ) qs)). intros b Hb. apply in_map_iff in Hb as (q & <- & _). reflexivity.
Qed.
Lemma zstring_not_id t qs : zstring t qs -> qs <> [] -> is_identity t = false.
Proof. intros H Ne. destruct H; [reflexivity| |]; (destruct qs; [congruence|reflexivity]). Qed.
Lemma zbasis_accepted n rho o : zbasis n rho o -> is_diag_pauli o = true /\ is_identity o = false.
Proof.
  induction 1 as [t qs Z Ne _|t qs e Z Ne _ _|bs Ne _ IH|bs e Ne _ IH _].
  - split; [eapply zstring_diag; exact Z|eapply zstring_not_id; eassumption].
  - split; [apply diag_scale; eapply zstring_diag; exact Z|cbn [is_identity]; eapply zstring_not_id; eassumption].
  - split; [apply diag_list; intros b Hb; apply IH; exact Hb|]. cbn [is_identity]. destruct bs as [|b bs]; [congruence|]. cbn [forallb]. rewrite (proj2 (IH b (or_introl eq_refl))). reflexivity.
  - split; [apply diag_scale, diag_list; intros b Hb; apply IH; exact Hb|]. cbn [is_identity]. destruct bs as [|b bs]; [congruence|]. cbn [forallb]. rewrite (proj2 (IH b (or_introl eq_refl))). reflexivity.
Qed.

(** * The terms *)
Definition zterm (n : nat) (rho : env) (tc : block * expr) : Prop := exists qs, zstring (fst tc) qs /\ (forall q, In q qs -> (q < n)%nat) /\ real_valued rho (snd tc).
Lemma unroll_zstring t qs acc : zstring t qs -> unroll t acc = acc ++ [(t, ECst (RtoC 1))].
Proof. destruct 1; reflexivity. Qed.
Lemma unroll_scaled t qs e acc : zstring t qs -> unroll (BScale t e) acc = acc ++ [(t, e)].
Proof. destruct 1; reflexivity. Qed.
Lemma real_one rho : real_valued rho (ECst (RtoC 1)).
Proof. unfold real_valued, ang. cbn [ev]. reflexivity. Qed.
Lemma real_mul rho a b : real_valued rho a -> real_valued rho b -> real_valued rho (EMul a b).
Proof. unfold real_valued, ang. intros A B. cbn [ev]. rewrite A, B. rewrite <- RtoC_mult. reflexivity. Qed.
Lemma fold_terms n rho bs : bs <> [] ->
  (forall b, In b bs -> forall acc, exists l, unroll b acc = acc ++ l /\ l <> [] /\ Forall (zterm n rho) l) ->
  forall acc, exists l, fold_left (fun a x => unroll x a) bs acc = acc ++ l /\ l <> [] /\ Forall (zterm n rho) l.
Proof.
  intros Ne H acc. assert (G : forall bs acc, (forall b, In b bs -> forall acc, exists l, unroll b acc = acc ++ l /\ l <> [] /\ Forall (zterm n rho) l) ->
    exists l, fold_left (fun a x => unroll x a) bs acc = acc ++ l /\ Forall (zterm n rho) l).
  { clear. induction bs as [|b bs IH]; intros acc H; [exists []; split; [cbn; rewrite app_nil_r; reflexivity|constructor]|].
    cbn [fold_left]. destruct (H b (or_introl eq_refl) acc) as (l & E & _ & F). destruct (IH (acc ++ l)) as (l' & E' & F'); [intros x Hx; apply H; right; exact Hx|].
    exists (l ++ l'). split; [rewrite E, E', app_assoc; reflexivity|apply Forall_app; auto]. }
  destruct bs as [|b bs]; [congruence|]. cbn [fold_left]. destruct (H b (or_introl eq_refl) acc) as (l & E & N & F).
  destruct (G bs (acc ++ l)) as (l' & E' & F'); [intros x Hx; apply H; right; exact Hx|].
  exists (l ++ l'). split; [rewrite E, E', app_assoc; reflexivity|]. split; [|apply Forall_app; auto]. destruct l; [congruence|discriminate].
Qed.
Lemma zbasis_terms n rho o : zbasis n rho o -> forall acc, exists l, unroll o acc = acc ++ l /\ l <> [] /\ Forall (zterm n rho) l.
Proof.
  induction 1 as [t qs Z Ne Q|t qs e Z Ne Q V|bs Ne _ IH|bs e Ne _ IH V]; intros acc.
  - exists [(t, ECst (RtoC 1))]. split; [eapply unroll_zstring; exact Z|]. split; [discriminate|]. constructor; [|constructor]. exists qs. cbn [fst snd]. auto using real_one.
  - exists [(t, e)]. split; [eapply unroll_scaled; exact Z|]. split; [discriminate|]. constructor; [|constructor]. exists qs. cbn [fst snd]. auto.
  - cbn [unroll]. apply fold_terms; assumption.
  - cbn [unroll]. destruct (fold_terms n rho bs Ne IH acc) as (l & E & N & F). rewrite E. rewrite firstn_app, firstn_all, Nat.sub_diag, app_nil_r by lia. cbn [firstn]. rewrite skipn_app, skipn_all, Nat.sub_diag. cbn [skipn app].
    eexists. split; [reflexivity|]. split; [destruct l; [congruence|discriminate]|]. apply Forall_map. eapply Forall_impl; [|exact F].
    intros [t c] (qs & Z & Q & R). exists qs. cbn [fst snd] in *. split; [exact Z|]. split; [exact Q|]. apply real_mul; assumption.
Qed.
Lemma zterms_supports n rho l : Forall (zterm n rho) l ->
  exists qss, Forall2 (fun tc qs => zstring (fst tc) qs /\ (forall q, In q qs -> (q < n)%nat) /\ real_valued rho (snd tc)) l qss.
Proof. induction 1 as [|tc l (qs & H) _ (qss & IH)]; [exists []; constructor|]. exists (qs :: qss). constructor; assumption. Qed.

(** The value of a Z string in a basis state is the sign of the outcome. *)
Lemma zstring_ket n rho t qs k : zstring t qs -> (forall q, In q qs -> (q < n)%nat) -> length k = n -> expval n (ket (seq 0 n) k) (den rho t) = RtoC (sign qs k).
Proof.
  intros Z Q L. rewrite (zstring_den rho t qs Z). rewrite <- (born_expval 1 n (ket (seq 0 n) k) qs); [|lra| |exact Q].
  - f_equal. rewrite born_total; [rewrite born_ket by exact L; field|]. unfold normalised. rewrite inner_ket by exact L. rewrite amps_ket, eqbits_refl by exact L. reflexivity.
  - unfold normalised. rewrite inner_ket by exact L. rewrite amps_ket, eqbits_refl by exact L. reflexivity.
Qed.

Lemma rsum_fold {A} (f : A -> R) l : fold_right (fun a s => f a + s) 0 l = rsum (map f l).
Proof. induction l as [|a l IH]; [reflexivity|]. cbn. rewrite IH. reflexivity. Qed.
Lemma histogram_nonempty n T c : 0 < T -> histogram n T c -> c <> [].
Proof. intros HT (_ & Ht & _) ->. unfold total, over in Ht. cbn in Ht. lra. Qed.
Lemma csum_add {A} (f g : A -> C) l : csum (fun a => f a + g a)%C l = (csum f l + csum g l)%C.
Proof. induction l as [|a l IH]; cbn [csum]; [ring|]. rewrite IH. ring. Qed.
Lemma csum_zero {A} (l : list A) : csum (fun _ => RtoC 0) l = RtoC 0.
Proof. induction l as [|a l IH]; cbn [csum]; [reflexivity|]. rewrite IH. ring. Qed.
(** The weighted sum of signs that the estimator returns is the mean of the observable's values. *)
Lemma terms_mean n T rho terms qss c : 0 < T -> histogram n T c ->
  Forall2 (fun tc qs => zstring (fst tc) qs /\ (forall q, In q qs -> (q < n)%nat) /\ real_valued rho (snd tc)) terms qss ->
  RtoC (rsum (map (fun p => ang rho (snd (fst p)) * (over c (sign (snd p)) / T)) (combine terms qss)))
  = csum (fun kv : list bool * R => RtoC (snd kv / T) * expval n (ket (seq 0 n) (fst kv)) (weighted rho terms))%C c.
Proof.
  intros HT (_ & _ & L). induction 1 as [|[t e] qs terms qss (Z & Q & V) F IH].
  - cbn [combine map rsum weighted fold_right]. transitivity (csum (fun _ : list bool * R => RtoC 0) c); [symmetry; apply csum_zero|]. apply csum_ext. intros kv _. rewrite expval_zero. ring.
  - cbn [combine map rsum fst snd]. rewrite RtoC_plus, IH. cbn [fst snd] in Z, Q, V.
    transitivity (csum (fun kv : list bool * R => RtoC (snd kv / T) * (ev rho e * expval n (ket (seq 0 n) (fst kv)) (den rho t)) + RtoC (snd kv / T) * expval n (ket (seq 0 n) (fst kv)) (weighted rho terms))%C c).
    + rewrite csum_add. f_equal. unfold over. rewrite V. clear IH F. induction c as [|[k v] c IHc]; cbn [map rsum csum fst snd].
      * f_equal. field. lra.
      * rewrite <- IHc by (intros k' v' I; apply (L k' v'); right; exact I). rewrite (zstring_ket n rho t qs k Z Q (L k v (or_introl eq_refl))).
        rewrite <- !RtoC_mult, <- RtoC_plus. f_equal. field. lra.
    + apply csum_ext. intros kv _. change (weighted rho ((t, e) :: terms)) with (addop (scaleop (ev rho e) (den rho t)) (weighted rho terms)). rewrite expval_add, expval_scale. ring.
Qed.

(** C82.  For observables in the Z basis and samples with the same number of shots, the estimate for every observable and every sample is
    the mean over the shots of the observable's value in the basis state that was read. *)
Theorem C82_average : forall si n T rho os samples, samples <> [] -> 0 < T ->
  (forall c, In c samples -> histogram n T c) -> (forall o, In o os -> zbasis n rho o) ->
  exists vss, compute_expectation si rho os samples = Some vss /\
    Forall2 (fun o vs => map RtoC vs = map (shot_mean n T rho o) samples) os vss.
Proof.
  intros si n T rho os samples Ns HT Hs. unfold compute_expectation. induction os as [|o os IH]; intros Ho; [exists []; split; [reflexivity|constructor]|].
  destruct IH as (vss & E & F); [intros x Hx; apply Ho; right; exact Hx|]. cbn [map osequence]. specialize (Ho o (or_introl eq_refl)).
  destruct (zbasis_accepted n rho o Ho) as [D I]. rewrite D, I. cbn [negb orb]. destruct (zbasis_terms n rho o Ho []) as (l & El & Nl & Fl). cbn [app] in El.
  destruct (zterms_supports n rho l Fl) as (qss & F2). change (unroll_block_with_scaling o) with (unroll o []). rewrite El.
  rewrite (C14_pauli_z si rho l qss samples Nl Ns).
  - rewrite E. eexists. split; [reflexivity|]. constructor; [|exact F]. rewrite map_map. apply map_ext_in. intros c Hc.
    replace (total (hd [] samples)) with T; [|destruct samples as [|c0 s]; [congruence|]; cbn [hd]; symmetry; apply (Hs c0 (or_introl eq_refl))].
    rewrite (terms_mean n T rho l qss c HT (Hs c Hc) F2). unfold shot_mean. rewrite <- (C48_sum rho o). unfold unroll_block_with_scaling. rewrite El. reflexivity.
  - clear - F2. induction F2 as [|tc qs l qss (Z & _) _ IHF]; constructor; assumption.
  - intros c qs Hc Hq. split; [eapply histogram_nonempty; [exact HT|apply Hs; exact Hc]|]. destruct (Hs c Hc) as (K1 & _ & K3). split; [exact K1|]. intros k v Hk i Hi. rewrite (K3 k v Hk).
    clear - F2 Hq Hi. induction F2 as [|tc q0 l qss (_ & Q & _) _ IHF]; [destruct Hq|]. destruct Hq as [->|Hq]; [apply Q; exact Hi|apply IHF; assumption].
Qed.
(** Exact frequencies give the exact expectation values. *)
Theorem C82_exact : forall si n rho os psi N, 0 < N -> normalised n psi -> (forall o, In o os -> zbasis n rho o) ->
  exists vs, compute_expectation si rho os [born N n psi] = Some (map (fun v => [v]) vs) /\ map RtoC vs = map (fun o => expval n psi (den rho o)) os.
Proof.
  intros si n rho os psi N HN Hp Ho. unfold compute_expectation. induction os as [|o os IH]; [exists []; split; reflexivity|].
  destruct IH as (vs & E & F); [intros x Hx; apply Ho; right; exact Hx|]. cbn [map osequence]. specialize (Ho o (or_introl eq_refl)).
  destruct (zbasis_accepted n rho o Ho) as [D I]. rewrite D, I. cbn [negb orb]. destruct (zbasis_terms n rho o Ho []) as (l & El & Nl & Fl). cbn [app] in El.
  destruct (zterms_supports n rho l Fl) as (qss & F2). change (unroll_block_with_scaling o) with (unroll o []). rewrite El.
  destruct (C14_exact si rho l qss n psi N Nl HN Hp F2) as (v & Ev & Sv). rewrite Ev, E. exists (v :: vs). split; [reflexivity|]. cbn [map]. rewrite F, Sv. rewrite <- (C48_sum rho o). unfold unroll_block_with_scaling. rewrite El. reflexivity.
Qed.
Example C82_average_ex : zbasis 2 (fun _ => 0) (BAdd [BScale (BAdd [BPrim PZ 0; BScale (BKron [BPrim PZ 0; BPrim PZ 1]) (ECst (RtoC 3))]) (ECst (RtoC 2)); BPrim PZ 1]) /\
  histogram 2 4 [([false; true], 3); ([true; true], 1)].
Proof.
  split.
  - apply ZBsum; [discriminate|]. intros b [<-|[<-|[]]].
    + apply ZBscaled_sum; [discriminate| |reflexivity]. intros b [<-|[<-|[]]].
      * apply (ZBstring _ _ _ [0%nat]); [constructor|discriminate|simpl; intuition lia].
      * apply (ZBscaled _ _ _ [0; 1]%nat); [apply (ZSkron [0; 1]%nat)|discriminate|simpl; intuition lia|reflexivity].
    + apply (ZBstring _ _ _ [1%nat]); [constructor|discriminate|simpl; intuition lia].
  - split; [intros k v [E|[E|[]]]; injection E as <- <-; lra|]. split; [unfold total, over; cbn; lra|]. intros k v [E|[E|[]]]; injection E as <- <-; reflexivity.
Qed.

(** * What is refused *)
Lemma diagonal_id : diagonal idop.
Proof. exists (fun _ => RtoC 1). intros psi x. unfold idop. ring. Qed.
Lemma diagonal_seq A B : diagonal A -> diagonal B -> diagonal (seqop A B).
Proof. intros [f F] [g G]. exists (fun x => (g x * f x)%C). intros psi x. unfold seqop. rewrite G, F. ring. Qed.
Lemma diagonal_add A B : diagonal A -> diagonal B -> diagonal (addop A B).
Proof. intros [f F] [g G]. exists (fun x => (f x + g x)%C). intros psi x. unfold addop. rewrite G, F. ring. Qed.
Lemma diagonal_scale c A : diagonal A -> diagonal (scaleop c A).
Proof. intros [f F]. exists (fun x => (c * f x)%C). intros psi x. unfold scaleop. rewrite F. ring. Qed.
Lemma diagonal_zero : diagonal zeroop.
Proof. exists (fun _ => RtoC 0). intros psi x. unfold zeroop. ring. Qed.
Lemma accepted_diagonal rho b : is_diag_pauli b = true -> diagonal (den rho b).
Proof.
  assert (L : forall bs, Forall (fun b => is_diag_pauli b = true -> diagonal (den rho b)) bs -> forallb is_diag_pauli bs = true -> diagonal (dchain rho bs) /\ diagonal (dadd rho bs)).
  { clear b. induction 1 as [|b bs Hb _ IH]; intros F; [split; [apply diagonal_id|apply diagonal_zero]|]. cbn [forallb] in F. apply andb_prop in F as [F1 F2]. destruct (IH F2).
    split; [apply diagonal_seq; auto|apply diagonal_add; auto]. }
  induction b as [p q|k br qs|r q e|q e1 e2 e3|u v|c u v|cs b' IHb|cs b' IHb|b' e IHb|bs H|bs H|bs H|m qs|g t IHb] using block_ind'; intros D; cbn [is_diag_pauli] in D; apply andb_prop in D as [_ D]; try discriminate D.
  - destruct p; try discriminate D; cbn [den].
    + exists (fun x => prim_mat PZ (x q) (x q)). intros psi x. apply gate1_diag; reflexivity.
    + exists (fun x => prim_mat PI_ (x q) (x q)). intros psi x. apply gate1_diag; reflexivity.
  - apply (diagonal_scale _ (den rho b')). apply IHb. exact D.
  - rewrite den_chain. apply L; assumption.
  - rewrite den_kron. apply L; assumption.
  - rewrite den_add. apply L; assumption.
Qed.
Lemma osequence_all {A B} (f : A -> option B) l vs : osequence (map f l) = Some vs -> forall x, In x l -> exists v, f x = Some v.
Proof.
  revert vs. induction l as [|a l IH]; intros vs E x Hx; [destruct Hx|]. cbn [map osequence] in E. destruct (f a) as [v|] eqn:Ea; [|discriminate E]. destruct (osequence (map f l)) as [r|] eqn:El; [|discriminate E].
  destruct Hx as [<-|Hx]; [eauto|]. eapply IH; [reflexivity|exact Hx].
Qed.
Lemma osequence_length {A B} (f : A -> option B) l vs : osequence (map f l) = Some vs -> length vs = length l.
Proof.
  revert vs. induction l as [|a l IH]; intros vs E; cbn [map osequence] in E; [injection E as <-; reflexivity|]. destruct (f a) as [v|]; [|discriminate E]. cbn in E.
  destruct (osequence (map f l)) as [r|]; [|discriminate E]. cbn in E. injection E as <-. cbn [length]. f_equal. apply IH. reflexivity.
Qed.
(** Whatever is estimated is diagonal in the computational basis, whatever the samples are; in particular an observable with an X or Y term is refused. *)
Theorem C82_refused : forall si rho os samples vss, compute_expectation si rho os samples = Some vss ->
  length vss = length os /\ forall o, In o os -> (forall rho', diagonal (den rho' o)) /\ is_identity o = false.
Proof.
  intros si rho os samples vss E. split.
  - unfold compute_expectation in E. exact (osequence_length _ _ _ E).
  - intros o Ho. destruct (osequence_all _ _ _ E o Ho) as [v Ev]. cbv zeta in Ev. destruct (is_diag_pauli o) eqn:D; [|discriminate Ev]. destruct (is_identity o) eqn:I; [discriminate Ev|].
    split; [intros rho'; apply accepted_diagonal; exact D|reflexivity].
Qed.
Example C82_refused_ex : compute_expectation (fun l => l) (fun _ => 0) [BAdd [BPrim PZ 0; BPrim PX 1]]%nat [[([false; true], 3); ([true; true], 1)]] = None.
Proof. reflexivity. Qed.

(** Finding: an identity term inside an accepted observable is estimated as if it were Z: Z(0) + I(1) on the outcome 01 gives 0 instead of 2.
    (Tomography treats such a term separately.) *)
Theorem C82_identity_term_refuted : exists o v b, o = BAdd [BPrim PZ 0%nat; BPrim PI_ 1%nat] /\
  compute_expectation (fun l => l) (fun _ => 0) [o] [[(b, 1)]] = Some [[v]] /\ RtoC v <> expval 2 (ket (seq 0 2) b) (den (fun _ => 0) o).
Proof.
  exists (BAdd [BPrim PZ 0%nat; BPrim PI_ 1%nat]), 0, [false; true]. split; [reflexivity|]. split.
  - unfold compute_expectation. cbn [map]. cbn [is_diag_pauli is_identity forallb block_is_qubit_hamiltonian get_pauli_blocks collect_paulis primitive_blocks flat_map app is_pauli option_map negb orb andb osequence].
    change (unroll_block_with_scaling (BAdd [BPrim PZ 0%nat; BPrim PI_ 1%nat])) with [(BPrim PZ 0%nat, ECst (RtoC 1)); (BPrim PI_ 1%nat, ECst (RtoC 1))].
    unfold pauli_z_expectation. cbn [map fst snd].
    replace (get_qubit_indices_for_op (fun l => l) (BPrim PZ 0%nat) None) with (Some [0%nat]) by reflexivity. replace (get_qubit_indices_for_op (fun l => l) (BPrim PI_ 1%nat) None) with (Some [1%nat]) by reflexivity.
    assert (R : forall s, In s [[0%nat]; [1%nat]] -> forall c, In c [[([false; true], 1)]] -> readable s c).
    { intros s Hs c [<-|[]]. split; [discriminate|]. split; [intros k v [E|[]]; injection E as <- <-; lra|]. intros k v [E|[]] i Hi; injection E as <- <-. destruct Hs as [<-|[<-|[]]]; destruct Hi as [<-|[]]; simpl; lia. }
    rewrite !C14_value; try discriminate; [|apply R; simpl; auto|apply R; simpl; auto]. cbn. unfold zip_add, ang. cbn. unfold total, over, sign. cbn. do 3 f_equal. field.
  - unfold expval. rewrite inner_ket by reflexivity. unfold amps, ket. simpl. unfold addop, zeroop, gate1, gate, csum. simpl. apply C_neq. left. simpl. lra.
Qed.
(** Finding: samples with different numbers of shots: all are divided by the number of shots of the first one (C14_unequal_refuted), here through
    the protocol: the mean of Z(0) over four shots of outcome 0 is 4. *)
Theorem C82_unequal_refuted : exists vs, compute_expectation (fun l => l) (fun _ => 0) [BPrim PZ 0%nat] [[([false], 1)]; [([false], 4)]] = Some [[1; vs]] /\ vs = 4.
Proof.
  exists 4. split; [|reflexivity]. unfold compute_expectation. cbn [map osequence]. cbn [is_diag_pauli is_identity block_is_qubit_hamiltonian get_pauli_blocks collect_paulis primitive_blocks is_pauli option_map negb orb andb].
  change (unroll_block_with_scaling (BPrim PZ 0%nat)) with [(BPrim PZ 0%nat, ECst (RtoC 1))].
  rewrite (C14_pauli_z (fun l => l) (fun _ => 0) _ [[0%nat]]); [|discriminate|discriminate|constructor; [constructor|constructor]|].
  - cbn. unfold ang, over, total, sign. cbn. f_equal. f_equal. f_equal; [field|f_equal; field].
  - intros c qs Hc [<-|[]]. destruct Hc as [<-|[<-|[]]]; (split; [discriminate|]; split; [intros k v [E|[]]; injection E as <- <-; lra|intros k v [E|[]] i [<-|[]]; injection E as <- <-; simpl; lia]).
Qed.

Print Assumptions C82_average.
Print Assumptions C82_exact.
Print Assumptions C82_refused.
Print Assumptions C82_identity_term_refuted.
Print Assumptions C82_unequal_refuted.
