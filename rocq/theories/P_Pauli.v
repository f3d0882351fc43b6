(** C47, C48: Pauli Hamiltonians. *)
From Coq Require Import String Reals List Arith Bool Lia Lra FunctionalExtensionality.
From Coquelicot Require Import Coquelicot.
From Coq Require Import List.
From Verif Require Import S_Ops L_Ops M_QubitSupport M_Block S_Den L_Den M_BlockOps L_Gates P_Operators P_Dagger M_Pauli.
Import ListNotations.
Open Scope R_scope.
Open Scope C_scope.

(** * C48 *)
(** Specification: the weighted sum of a list of terms. *)
Definition weighted (rho : env) (l : list (block * expr)) : Op :=
  fold_right (fun bc A => addop (scaleop (ev rho (snd bc)) (den rho (fst bc))) A) zeroop l.

Lemma weighted_app rho l l' : weighted rho (l ++ l') = addop (weighted rho l) (weighted rho l').
Proof. induction l as [|x l IH]; simpl; [rewrite addop_zero_l; reflexivity|]. rewrite IH, addop_assoc. reflexivity. Qed.
Lemma weighted_scale rho s l : weighted rho (map (fun bm => (fst bm, EMul s (snd bm))) l) = scaleop (ev rho s) (weighted rho l).
Proof. induction l as [|x l IH]; simpl; [rewrite scaleop_zero; reflexivity|]. rewrite IH, scaleop_add, scaleop_scale. reflexivity. Qed.
Definition unroll_spec rho b := forall acc, exists l, unroll b acc = acc ++ l /\ weighted rho l = den rho b.
Lemma unroll_fold rho bs : Forall (unroll_spec rho) bs -> forall acc, exists l, fold_left (fun a x => unroll x a) bs acc = acc ++ l /\ weighted rho l = dadd rho bs.
Proof.
  induction 1 as [|b bs Hb Hbs IH]; intros acc; [exists []; split; [rewrite app_nil_r; reflexivity|reflexivity]|].
  simpl. destruct (Hb acc) as (l1 & E1 & W1). rewrite E1. destruct (IH (acc ++ l1)) as (l2 & E2 & W2). exists (l1 ++ l2). split; [rewrite E2, app_assoc; reflexivity|].
  rewrite weighted_app, W1, W2. reflexivity.
Qed.
Lemma unroll_ok rho b : unroll_spec rho b.
Proof.
  assert (One : forall b acc, exists l, acc ++ [(b, ECst (RtoC 1))] = acc ++ l /\ weighted rho l = den rho b).
  { intros b0 acc. exists [(b0, ECst (RtoC 1))]. split; [reflexivity|]. simpl. rewrite addop_zero_r, scaleop_one. reflexivity. }
  induction b using block_ind'; intros acc; try (exact (One _ acc)).
  - (* scale *)
    assert (S1 : forall b', exists l, acc ++ [(b', e)] = acc ++ l /\ weighted rho l = den rho (BScale b' e)).
    { intros b'. exists [(b', e)]. split; [reflexivity|]. simpl. rewrite addop_zero_r. reflexivity. }
    destruct b; try exact (S1 _). cbn [unroll]. specialize (IHb acc). destruct IHb as (l & E & W). cbn [unroll] in E.
    exists (map (fun bm => (fst bm, EMul e (snd bm))) l). rewrite E. rewrite firstn_app, skipn_app, Nat.sub_diag, firstn_all, skipn_all. simpl. rewrite app_nil_r. split; [reflexivity|].
    rewrite weighted_scale, W. reflexivity.
  - cbn [unroll]. destruct (unroll_fold rho bs H acc) as (l & E & W). exists l. split; [exact E|]. rewrite W. reflexivity.
Qed.
(** The weighted sum of the returned terms is the block's operator. *)
Theorem C48_sum : forall rho b, weighted rho (unroll_block_with_scaling b) = den rho b.
Proof. intros rho b. destruct (unroll_ok rho b []) as (l & E & W). unfold unroll_block_with_scaling. rewrite E. exact W. Qed.

(** The terms are not sums; and they are not scalings either unless a ScaleBlock directly wraps another one. *)
Fixpoint no_double_scale (b : block) : Prop :=
  match b with
  | BScale (BScale _ _) _ => False
  | BScale b' _ => no_double_scale b'
  | BAdd bs => fold_right (fun x A => no_double_scale x /\ A) True bs
  | _ => True
  end.
Definition plain (strong : Prop) (l : list (block * expr)) : Prop :=
  forall t c, In (t, c) l -> (forall bs, t <> BAdd bs) /\ (strong -> forall t' c', t <> BScale t' c').
Definition splits b := forall acc, exists l, unroll b acc = acc ++ l /\ plain (no_double_scale b) l.
Lemma splits_fold bs : Forall splits bs -> forall acc, exists l, fold_left (fun a x => unroll x a) bs acc = acc ++ l /\ plain (no_double_scale (BAdd bs)) l.
Proof.
  induction 1 as [|b bs Hb Hbs IH]; intros acc; [exists []; split; [rewrite app_nil_r; reflexivity|intros t c []]|].
  simpl. destruct (Hb acc) as (l1 & E1 & W1). rewrite E1. destruct (IH (acc ++ l1)) as (l2 & E2 & W2). exists (l1 ++ l2). split; [rewrite E2, app_assoc; reflexivity|].
  intros t c I. apply in_app_iff in I as [I|I].
  - destruct (W1 t c I) as [A B]. split; [exact A|]. intros [N _]. exact (B N).
  - destruct (W2 t c I) as [A B]. split; [exact A|]. intros [_ N]. exact (B N).
Qed.
Lemma splits_ok b : splits b.
Proof.
  induction b using block_ind'; intros acc;
    try (cbn [unroll]; eexists; split; [reflexivity|]; intros u x [I|[]]; injection I as <- <-; split; [intros bs' Q; discriminate|intros _ t' c' Q; discriminate]).
  - assert (S1 : forall b', (forall bs, b' <> BAdd bs) -> exists l, acc ++ [(b', e)] = acc ++ l /\ plain (no_double_scale (BScale b' e)) l).
    { intros b' Nb. exists [(b', e)]. split; [reflexivity|]. intros t x [J|[]]. injection J as <- <-. split; [exact Nb|]. intros N t' c' ->. exact N. }
    destruct b; try (apply (S1 _); intros bs' Q; discriminate). cbn [unroll]. specialize (IHb acc). destruct IHb as (l0 & E & W). cbn [unroll] in E.
    exists (map (fun bm => (fst bm, EMul e (snd bm))) l0). rewrite E. rewrite firstn_app, skipn_app, Nat.sub_diag, firstn_all, skipn_all. simpl. rewrite app_nil_r. split; [reflexivity|].
    intros t x I. apply in_map_iff in I as ([t0 c0] & Q & I). simpl in Q. injection Q as <- <-. destruct (W _ _ I) as [A B]. split; [exact A|]. intros N. apply B. exact N.
  - apply splits_fold. exact H.
Qed.
Theorem C48_terms : forall b t c, In (t, c) (unroll_block_with_scaling b) ->
  (forall bs, t <> BAdd bs) /\ (no_double_scale b -> forall t' c', t <> BScale t' c').
Proof. intros b t c I. destruct (splits_ok b []) as (l & E & P). unfold unroll_block_with_scaling in I. rewrite E in I. exact (P t c I). Qed.
(** A ScaleBlock directly around a ScaleBlock hides a sum: the returned term still contains it. *)
Theorem C48_terms_refuted : exists b t c, In (t, c) (unroll_block_with_scaling b) /\ exists bs s, t = BScale (BAdd bs) s.
Proof.
  exists (BScale (BScale (BAdd [BPrim PX 0%nat; BPrim PZ 0%nat]) (ECst (RtoC 3))) (ECst (RtoC 2))). eexists. eexists. split; [left; reflexivity|]. eexists. eexists. reflexivity.
Qed.
Example C48_ex : let b := BScale (BAdd [BScale (BPrim PX 0%nat) (EVar "a"%string); BScale (BAdd [BPrim PZ 1%nat; BPrim PY 1%nat]) (ECst (RtoC 3))]) (ECst (RtoC 2)) in
  no_double_scale b /\ unroll_block_with_scaling b =
    [(BPrim PX 0%nat, EMul (ECst (RtoC 2)) (EVar "a"%string));
     (BPrim PZ 1%nat, EMul (ECst (RtoC 2)) (EMul (ECst (RtoC 3)) (ECst (RtoC 1))));
     (BPrim PY 1%nat, EMul (ECst (RtoC 2)) (EMul (ECst (RtoC 3)) (ECst (RtoC 1))))].
Proof. simpl. repeat split. Qed.

(** * C47 *)
(** Specification: the blocks built from X, Y, Z, I and N by scaling, sums, tensor products and chains. *)
Inductive pauli_expression : block -> Prop :=
| PEleaf p q : In p [PX; PY; PZ; PI_; PN true; PN false] -> pauli_expression (BPrim p q)
| PEscale b e : pauli_expression b -> pauli_expression (BScale b e)
| PEchain bs : Forall pauli_expression bs -> pauli_expression (BChain bs)
| PEkron bs : Forall pauli_expression bs -> pauli_expression (BKron bs)
| PEadd bs : Forall pauli_expression bs -> pauli_expression (BAdd bs).

Lemma collect_spec l : (match collect_paulis l with Some _ => true | None => false end) = forallb is_pauli l.
Proof. induction l as [|b l IH]; [reflexivity|]. simpl. destruct (is_pauli b); [|reflexivity]. simpl. rewrite <- IH. destruct (collect_paulis l); reflexivity. Qed.
Lemma qh_forallb b : block_is_qubit_hamiltonian b = forallb is_pauli (primitive_blocks b).
Proof. apply collect_spec. Qed.
Lemma forallb_flat_map (f : block -> list block) bs : forallb is_pauli (flat_map f bs) = forallb (fun b => forallb is_pauli (f b)) bs.
Proof. induction bs as [|b bs IH]; [reflexivity|]. simpl. rewrite forallb_app, IH. reflexivity. Qed.
Lemma Forall_iff_forallb bs : Forall (fun b => forallb is_pauli (primitive_blocks b) = true <-> pauli_expression b) bs ->
  forallb (fun b => forallb is_pauli (primitive_blocks b)) bs = true <-> Forall pauli_expression bs.
Proof.
  induction 1 as [|b bs Hb Hbs IH]; [split; [constructor|reflexivity]|]. simpl. rewrite andb_true_iff, IH, Hb. split; [intros [A B]; constructor; assumption|].
  intros F. inversion F; subst. split; assumption.
Qed.
Theorem C47_hamiltonian : forall b, block_is_qubit_hamiltonian b = true <-> pauli_expression b.
Proof.
  intros b. rewrite qh_forallb. induction b using block_ind'; try (split; [discriminate|intros F; inversion F]).
  - split.
    + intros E. constructor. destruct p as [| | | | | | | | | |[|]]; try discriminate; simpl; tauto.
    + intros F. inversion F as [p0 q0 I| | | |]; subst. simpl in I. repeat (destruct I as [<-|I]; [reflexivity|]). destruct I.
  - simpl. rewrite IHb. split; [intros F; constructor; exact F|intros F; inversion F; assumption].
  - simpl. rewrite forallb_flat_map, Forall_iff_forallb by exact H. split; [intros F; constructor; exact F|intros F; inversion F; assumption].
  - simpl. rewrite forallb_flat_map, Forall_iff_forallb by exact H. split; [intros F; constructor; exact F|intros F; inversion F; assumption].
  - simpl. rewrite forallb_flat_map, Forall_iff_forallb by exact H. split; [intros F; constructor; exact F|intros F; inversion F; assumption].
Qed.

(** Specification of the commutation check: the operators met on a qubit, reading the tree. *)
Inductive acts : block -> nat -> pname -> Prop :=
| Aleaf p q n : name_of_prim p = Some n -> acts (BPrim p q) q n
| Ascale b e q n : acts b q n -> acts (BScale b e) q n
| Akron bs b q n : In b bs -> acts b q n -> acts (BKron bs) q n
| Aadd bs b q n : In b bs -> acts b q n -> acts (BAdd bs) q n.
(** No chains: sums and tensor products of scaled Pauli operators. *)
Inductive chain_free : block -> Prop :=
| CFleaf p q : chain_free (BPrim p q)
| CFscale b e : chain_free b -> chain_free (BScale b e)
| CFkron bs : Forall chain_free bs -> chain_free (BKron bs)
| CFadd bs : Forall chain_free bs -> chain_free (BAdd bs).

Fixpoint look (d : supports) (q : nat) : list pname :=
  match d with [] => [] | (q', s) :: r => if Nat.eqb q' q then s else look r q end.
Lemma pname_eq_iff a b : pname_eq a b = true <-> a = b.
Proof. destruct a, b; simpl; split; intros E; congruence. Qed.
Lemma look_add d q n q' : look (add_name d q n) q' = if Nat.eqb q q' then (if existsb (pname_eq n) (look d q') then look d q' else look d q' ++ [n]) else look d q'.
Proof.
  induction d as [|[q0 s] d IH]; simpl.
  - destruct (Nat.eqb q q'); reflexivity.
  - destruct (Nat.eqb q0 q) eqn:E.
    + apply Nat.eqb_eq in E. subst. simpl. destruct (Nat.eqb q q'); reflexivity.
    + simpl. destruct (Nat.eqb q0 q') eqn:E'; [|exact IH]. apply Nat.eqb_eq in E'. subst. rewrite Nat.eqb_sym, E. reflexivity.
Qed.
Lemma add_in d q n q' m : In m (look (add_name d q n) q') <-> In m (look d q') \/ (q = q' /\ n = m).
Proof.
  rewrite look_add. destruct (Nat.eqb q q') eqn:E.
  - apply Nat.eqb_eq in E. subst. destruct (existsb (pname_eq n) (look d q')) eqn:X.
    + apply existsb_exists in X as (y & Iy & Y). apply pname_eq_iff in Y. subst. split; [tauto|]. intros [A|[_ ->]]; assumption.
    + rewrite in_app_iff. simpl. split; [intros [A|[A|[]]]; [left|right]; auto|intros [A|[_ A]]; auto].
  - apply Nat.eqb_neq in E. split; [tauto|intros [A|[A _]]; [exact A|contradiction]].
Qed.
Lemma add_nodup d q n q' : NoDup (look d q') -> NoDup (look (add_name d q n) q').
Proof.
  intros N. rewrite look_add. destruct (Nat.eqb q q'); [|exact N]. destruct (existsb (pname_eq n) (look d q')) eqn:X; [exact N|].
  apply NoDup_rev in N. rewrite <- (rev_involutive (look d q' ++ [n])). apply NoDup_rev. rewrite rev_app_distr. simpl. constructor; [|exact N].
  rewrite <- in_rev. intros I. assert (T : existsb (pname_eq n) (look d q') = true) by (apply existsb_exists; exists n; split; [exact I|apply pname_eq_iff; reflexivity]). congruence.
Qed.
Lemma add_keys d q n : NoDup (map fst d) -> NoDup (map fst (add_name d q n)) /\ (forall k, In k (map fst (add_name d q n)) -> k = q \/ In k (map fst d)).
Proof.
  induction d as [|[q0 s] d IH]; simpl; intros N.
  - split; [constructor; [intros []|constructor]|intros k [A|[]]; auto].
  - inversion N as [|a b Na Nb]; subst. destruct (Nat.eqb q0 q) eqn:E; simpl.
    + split; [exact N|intros k [A|A]; auto].
    + destruct (IH Nb) as [I1 I2]. split; [constructor; [|exact I1]|].
      * intros I. destruct (I2 _ I) as [A|A]; [subst; rewrite Nat.eqb_refl in E; discriminate|contradiction].
      * intros k [A|A]; [auto|]. destruct (I2 _ A); auto.
Qed.
Definition good (d : supports) := NoDup (map fst d) /\ forall q, NoDup (look d q).
Lemma good_add d q n : good d -> good (add_name d q n).
Proof. intros [A B]. split; [apply add_keys, A|]. intros q'. apply add_nodup, B. Qed.
Lemma good_forallb d : good d -> forallb (fun qs => Nat.leb (length (snd qs)) 1) d = true <-> forall q n m, In n (look d q) -> In m (look d q) -> n = m.
Proof.
  intros [K N]. rewrite forallb_forall. split.
  - intros H q n m In_ Im. assert (L : (length (look d q) <= 1)%nat).
    { clear In_ Im N K. induction d as [|[q0 s] d IH]; simpl; [lia|]. destruct (Nat.eqb q0 q); [apply Nat.leb_le; apply (H (q0, s)); left; reflexivity|apply IH; intros x I; apply H; right; exact I]. }
    destruct (look d q) as [|a [|b l]]; simpl in *; [contradiction| |lia]. destruct In_ as [<-|[]], Im as [<-|[]]. reflexivity.
  - intros H [q s] I. simpl. assert (E : look d q = s).
    { clear H N. induction d as [|[q0 s0] d IH]; [contradiction|]. simpl in *. inversion K as [|a b Na Nb]; subst. destruct I as [I|I].
      - injection I as -> ->. rewrite Nat.eqb_refl. reflexivity.
      - destruct (Nat.eqb q0 q) eqn:E; [|apply IH; assumption]. apply Nat.eqb_eq in E. subst. exfalso. apply Na. apply in_map_iff. exists (q, s). split; [reflexivity|exact I]. }
    specialize (N q). specialize (H q). rewrite E in *. destruct s as [|a [|b l]]; try reflexivity. exfalso.
    inversion N as [|x y Nx Ny]; subst. apply Nx. left. symmetry. apply H; simpl; auto.
Qed.
Definition chk b := chain_free b -> pauli_expression b -> forall d, good d -> exists d', check_commutation b d = Some d' /\ good d' /\ (forall q n, In n (look d' q) <-> In n (look d q) \/ acts b q n).
Lemma chk_fold bs : Forall chk bs -> Forall chain_free bs -> Forall pauli_expression bs -> forall d, good d ->
  exists d', fold_left (fun acc x => match acc with Some d => check_commutation x d | None => None end) bs (Some d) = Some d' /\ good d' /\
    (forall q n, In n (look d' q) <-> In n (look d q) \/ exists b, In b bs /\ acts b q n).
Proof.
  induction 1 as [|b bs Hb Hbs IH]; intros C P d G.
  - exists d. split; [reflexivity|]. split; [exact G|]. intros q n. split; [tauto|intros [A|(b & [] & _)]; exact A].
  - inversion C; subst. inversion P; subst. destruct (Hb ltac:(assumption) ltac:(assumption) d G) as (d1 & E1 & G1 & S1).
    destruct (IH ltac:(assumption) ltac:(assumption) d1 G1) as (d2 & E2 & G2 & S2). exists d2. simpl. rewrite E1. split; [exact E2|]. split; [exact G2|].
    intros q n. rewrite S2, S1. split.
    + intros [[A|A]|(b' & I & A)]; [left; exact A|right; exists b; simpl; auto|right; exists b'; simpl; auto].
    + intros [A|(b' & [<-|I] & A)]; [auto|auto|right; exists b'; auto].
Qed.
Lemma chk_all b : chk b.
Proof.
  induction b using block_ind'; intros C P d G; try (inversion C; fail).
  - inversion P as [p0 q0 I| | | |]; subst. assert (Hn : exists n, name_of_prim p = Some n) by (simpl in I; repeat (destruct I as [<-|I]; [eexists; reflexivity|]); destruct I).
    destruct Hn as [n Hn]. exists (add_name d q n). cbn [check_commutation]. rewrite Hn. split; [reflexivity|]. split; [apply good_add, G|].
    intros q' m. rewrite add_in. split.
    + intros [A|[-> ->]]; [auto|right; constructor; exact Hn].
    + intros [A|A]; [auto|]. inversion A; subst. right. split; congruence.
  - inversion C; subst. inversion P; subst. destruct (IHb ltac:(assumption) ltac:(assumption) d G) as (d' & E & G' & S). exists d'. split; [exact E|]. split; [exact G'|].
    intros q n. rewrite S. split; (intros [A|A]; [auto|right]); [constructor; exact A|inversion A; assumption].
  - inversion C; subst. inversion P; subst. destruct (chk_fold bs H ltac:(assumption) ltac:(assumption) d G) as (d' & E & G' & S). exists d'. split; [exact E|]. split; [exact G'|].
    intros q n. rewrite S. split; (intros [A|A]; [auto|right]).
    + destruct A as (b & I & A). econstructor; eassumption.
    + inversion A; subst. eexists. split; eassumption.
  - inversion C; subst. inversion P; subst. destruct (chk_fold bs H ltac:(assumption) ltac:(assumption) d G) as (d' & E & G' & S). exists d'. split; [exact E|]. split; [exact G'|].
    intros q n. rewrite S. split; (intros [A|A]; [auto|right]).
    + destruct A as (b & I & A). econstructor; eassumption.
    + inversion A; subst. eexists. split; eassumption.
Qed.
Lemma check_chain_free : forall b d d', check_commutation b d = Some d' -> chain_free b.
Proof.
  assert (F : forall bs, Forall (fun b => forall d d', check_commutation b d = Some d' -> chain_free b) bs -> forall od d',
      fold_left (fun acc x => match acc with Some d => check_commutation x d | None => None end) bs od = Some d' -> Forall chain_free bs).
  { induction 1 as [|b bs Hb Hbs IH]; intros od d' E; [constructor|]. simpl in E. constructor.
    - destruct od as [d|]; [destruct (check_commutation b d) as [d1|] eqn:E1; [exact (Hb _ _ E1)|]|].
      + exfalso. clear - E. induction bs; simpl in E; [discriminate|apply IHbs; exact E].
      + exfalso. clear - E. induction bs; simpl in E; [discriminate|apply IHbs; exact E].
    - exact (IH _ _ E). }
  intros b. induction b using block_ind'; intros d d' E; try discriminate.
  - constructor.
  - constructor. exact (IHb _ _ E).
  - constructor. exact (F bs H _ _ E).
  - constructor. exact (F bs H _ _ E).
Qed.
(** The answer: [Some true] exactly when every qubit meets a single kind of operator, [Some false] when some qubit meets two, and an
    exception exactly for blocks that are not chain-free Pauli expressions. *)
Theorem C47_exact : forall b,
  (block_is_commuting_hamiltonian b = Some true <-> pauli_expression b /\ chain_free b /\ forall q n m, acts b q n -> acts b q m -> n = m) /\
  (block_is_commuting_hamiltonian b = None <-> ~ (pauli_expression b /\ chain_free b)).
Proof.
  intros b. unfold block_is_commuting_hamiltonian. destruct (block_is_qubit_hamiltonian b) eqn:Q.
  - pose proof (proj1 (C47_hamiltonian b) Q) as P. destruct (check_commutation b []) as [d|] eqn:E.
    + pose proof (check_chain_free b _ _ E) as C. destruct (chk_all b C P [] ltac:(split; [constructor|intros q; constructor])) as (d' & E' & G & S).
      rewrite E in E'. injection E' as <-. simpl. split.
      * split.
        -- intros T. injection T as T. pose proof (proj1 (good_forallb d G) T) as T'. split; [exact P|]. split; [exact C|]. intros q n m A B. apply (T' q); apply S; right; assumption.
        -- intros (_ & _ & U). f_equal. apply (good_forallb d G). intros q n m A B. apply S in A as [[]|A]. apply S in B as [[]|B]. exact (U q n m A B).
      * split; [discriminate|intros N; exfalso; apply N; split; assumption].
    + simpl. assert (N : ~ chain_free b).
      { intros C. destruct (chk_all b C P [] ltac:(split; [constructor|intros q; constructor])) as (d' & E' & _). congruence. }
      split; [split; [discriminate|tauto]|]. split; [intros _ [_ C]; exact (N C)|reflexivity].
  - assert (N : ~ pauli_expression b) by (intros P; apply C47_hamiltonian in P; congruence). split; [split; [discriminate|tauto]|]. split; [intros _ [P _]; exact (N P)|reflexivity].
Qed.

(** Soundness: if the answer is True, any two terms of the expansion (and any two summands) commute as operators. *)
Definition commute (A B : Op) : Prop := seqop A B = seqop B A.
Definition reads (nm : nat -> pname) (b : block) : Prop := pauli_expression b /\ chain_free b /\ forall q n, acts b q n -> n = nm q.
Lemma commute_sym A B : commute A B -> commute B A.
Proof. unfold commute. auto. Qed.
Lemma commute_add A B D : linear D -> commute A D -> commute B D -> commute (addop A B) D.
Proof. unfold commute. intros L E1 E2. rewrite seqop_add_l, seqop_add_r, E1, E2 by exact L. reflexivity. Qed.
Lemma commute_scale k A D : linear D -> commute A D -> commute (scaleop k A) D.
Proof. unfold commute. intros L E1. rewrite seqop_scale_l, seqop_scale_r, E1 by exact L. reflexivity. Qed.
Lemma commute_seq A B D : commute A D -> commute B D -> commute (seqop A B) D.
Proof. unfold commute. intros E1 E2. rewrite seqop_assoc, E2, <- seqop_assoc, E1, seqop_assoc. reflexivity. Qed.
Lemma commute_chain rho bs D : Forall (fun b => commute (den rho b) D) bs -> commute (dchain rho bs) D.
Proof. induction 1 as [|b bs Hb Hbs IH]; [unfold commute; simpl; rewrite seqop_id_l, seqop_id_r; reflexivity|]. simpl. apply commute_seq; assumption. Qed.
Lemma commute_sum rho bs D : linear D -> Forall (fun b => commute (den rho b) D) bs -> commute (dadd rho bs) D.
Proof.
  intros L. induction 1 as [|b bs Hb Hbs IH].
  - unfold commute. simpl. rewrite seqop_zero_l by exact L. reflexivity.
  - simpl. apply commute_add; assumption.
Qed.
Lemma same_name_commute p p' n q : name_of_prim p = Some n -> name_of_prim p' = Some n -> commute (gate1 q (prim_mat p)) (gate1 q (prim_mat p')).
Proof.
  intros E E'. unfold commute. rewrite !gate1_gate1. apply gate1_ext. intros a c. unfold mmul.
  destruct p as [| | | | | | | | | |[|]], p' as [| | | | | | | | | |[|]]; simpl in E, E'; try congruence; destruct a, c; simpl; ring.
Qed.
Lemma reads_commute rho nm a : reads nm a -> forall b, reads nm b -> commute (den rho a) (den rho b).
Proof.
  assert (Sub : forall bs, reads nm (BKron bs) \/ reads nm (BAdd bs) -> Forall (reads nm) bs).
  { intros bs [(P & C & A)|(P & C & A)]; inversion P; inversion C; subst; apply Forall_forall; intros x I;
      (split; [eapply Forall_forall; [|exact I]; eassumption|]; split; [eapply Forall_forall; [|exact I]; eassumption|]; intros q n X; apply A; econstructor; eassumption). }
  assert (SubS : forall b e, reads nm (BScale b e) -> reads nm b).
  { intros b e (P & C & A). inversion P; inversion C; subst. split; [assumption|]. split; [assumption|]. intros q n X. apply A. constructor. exact X. }
  induction a using block_ind'; intros R; try (destruct R as (P & C & _); inversion C; fail).
  - (* leaf *)
    rename R into Ra. intros b. induction b using block_ind'; intros R; try (destruct R as (P & C & _); inversion C; fail).
    + destruct (Nat.eq_dec q q0) as [<-|N].
      * destruct Ra as (P & _ & A). destruct R as (P' & _ & A'). assert (Hn : exists n, name_of_prim p = Some n) by (inversion P as [p1 q1 I| | | |]; subst; simpl in I; repeat (destruct I as [<-|I]; [eexists; reflexivity|]); destruct I).
        assert (Hn' : exists n, name_of_prim p0 = Some n) by (inversion P' as [p1 q1 I| | | |]; subst; simpl in I; repeat (destruct I as [<-|I]; [eexists; reflexivity|]); destruct I).
        destruct Hn as [n Hn], Hn' as [n' Hn']. assert (n = nm q) by (apply A; constructor; exact Hn). assert (n' = nm q) by (apply A'; constructor; exact Hn'). subst.
        exact (same_name_commute p p0 _ q Hn Hn').
      * apply den_comm. simpl. intros k [<-|[]] [E|[]]. congruence.
    + apply commute_sym. apply commute_scale; [apply den_linear|]. apply commute_sym. apply IHb. exact (SubS _ _ R).
    + apply commute_sym. change (den rho (BKron bs)) with (dchain rho bs). apply commute_chain. pose proof (Sub bs (or_introl R)) as F. rewrite Forall_forall in *. intros x I. apply commute_sym. apply H; [exact I|apply F; exact I].
    + apply commute_sym. change (den rho (BAdd bs)) with (dadd rho bs). apply commute_sum; [apply den_linear|]. pose proof (Sub bs (or_intror R)) as F. rewrite Forall_forall in *. intros x I. apply commute_sym. apply H; [exact I|apply F; exact I].
  - intros b' R'. apply commute_scale; [apply den_linear|]. apply IHa; [exact (SubS _ _ R)|exact R'].
  - intros b' R'. change (den rho (BKron bs)) with (dchain rho bs). apply commute_chain. pose proof (Sub bs (or_introl R)) as F. rewrite Forall_forall in *. intros x I. apply H; [exact I|apply F; exact I|exact R'].
  - intros b' R'. change (den rho (BAdd bs)) with (dadd rho bs). apply commute_sum; [apply den_linear|]. pose proof (Sub bs (or_intror R)) as F. rewrite Forall_forall in *. intros x I. apply H; [exact I|apply F; exact I|exact R'].
Qed.
(** The sub-blocks of a Hamiltonian. *)
Inductive part : block -> block -> Prop :=
| Pself b : part b b
| Pscale x b e : part x b -> part x (BScale b e)
| Pkron x bs b : In b bs -> part x b -> part x (BKron bs)
| Padd x bs b : In b bs -> part x b -> part x (BAdd bs).
Lemma part_reads nm b x : part x b -> reads nm b -> reads nm x.
Proof.
  induction 1 as [b|x b e H IH|x bs b I H IH|x bs b I H IH]; intros (P & C & A); [split; [exact P|split; [exact C|exact A]]| | |]; apply IH; inversion P; inversion C; subst.
  - split; [assumption|]. split; [assumption|]. intros q n X. apply A. constructor. exact X.
  - split; [eapply Forall_forall; [|exact I]; eassumption|]. split; [eapply Forall_forall; [|exact I]; eassumption|]. intros q n X. apply A. econstructor; eassumption.
  - split; [eapply Forall_forall; [|exact I]; eassumption|]. split; [eapply Forall_forall; [|exact I]; eassumption|]. intros q n X. apply A. econstructor; eassumption.
Qed.
Theorem C47_sound : forall rho b, block_is_commuting_hamiltonian b = Some true ->
  forall x y, part x b -> part y b -> seqop (den rho x) (den rho y) = seqop (den rho y) (den rho x).
Proof.
  intros rho b E x y Px Py. destruct (proj1 (proj1 (C47_exact b)) E) as (P & C & U).
  pose proof (chk_all b C P [] ltac:(split; [constructor|intros q; constructor])) as (d & _ & _ & S).
  assert (R : reads (fun q => hd NI (look d q)) b).
  { split; [exact P|]. split; [exact C|]. intros q n A. destruct (look d q) as [|m l] eqn:L.
    - exfalso. pose proof (proj2 (S q n) (or_intror A)) as J. rewrite L in J. destruct J.
    - simpl. apply (U q); [exact A|]. pose proof (proj1 (S q m)) as J. rewrite L in J. destruct (J (or_introl eq_refl)) as [[]|J']. exact J'. }
  exact (reads_commute rho _ x (part_reads _ _ _ Px R) y (part_reads _ _ _ Py R)).
Qed.
(** In particular the terms of the expansion of C48 commute. *)
Lemma unroll_part b : forall acc t c, In (t, c) (unroll b acc) -> In (t, c) acc \/ (exists t' c', In (t', c') acc /\ t = t') \/ part t b.
Proof.
  induction b using block_ind'; intros acc u x I; try (cbn [unroll] in I; apply in_app_iff in I as [I|[I|[]]]; [left; exact I|]; injection I as <- <-; right; right; constructor).
  - assert (S1 : In (u, x) (acc ++ [(b, e)]) -> In (u, x) acc \/ (exists t' c', In (t', c') acc /\ u = t') \/ part u (BScale b e)).
    { intros J. apply in_app_iff in J as [J|[J|[]]]; [left; exact J|]. injection J as <- <-. right. right. constructor. constructor. }
    destruct b; try exact (S1 I). cbn [unroll] in I. apply in_app_iff in I as [I|I].
    + match type of I with In _ (firstn ?n ?l) => assert (I' : In (u, x) l) by (rewrite <- (firstn_skipn n l); apply in_app_iff; left; exact I) end. clear I. rename I' into I. specialize (IHb acc u x). cbn [unroll] in IHb. destruct (IHb I) as [A|[A|A]]; [auto|auto|right; right; constructor; exact A].
    + apply in_map_iff in I as ([t0 c0] & Q & I). simpl in Q. injection Q as <- <-. match type of I with In _ (skipn ?n ?l) => assert (I' : In (t0, c0) l) by (rewrite <- (firstn_skipn n l); apply in_app_iff; right; exact I) end. clear I. rename I' into I. specialize (IHb acc t0 c0). cbn [unroll] in IHb. destruct (IHb I) as [A|[A|A]]; [right; left; exists t0, c0; auto|auto|right; right; constructor; exact A].
  - cbn [unroll] in I. revert acc I. assert (G : forall bs0, incl bs0 bs -> forall acc, In (u, x) (fold_left (fun a y => unroll y a) bs0 acc) -> In (u, x) acc \/ (exists t' c', In (t', c') acc /\ u = t') \/ part u (BAdd bs)).
    { induction bs0 as [|b0 bs0 IH]; intros J acc I; [left; exact I|]. simpl in I. rewrite Forall_forall in H.
      pose proof (H b0 (J b0 (or_introl eq_refl))) as Hb.
      assert (Q : forall v w, In (v, w) (unroll b0 acc) -> In (v, w) acc \/ (exists t' c', In (t', c') acc /\ v = t') \/ part v (BAdd bs)).
      { intros v w Iv. destruct (Hb acc v w Iv) as [A|[A|A]]; [auto|auto|right; right; econstructor; [apply J; left; reflexivity|exact A]]. }
      destruct (IH (fun z Iz => J z (or_intror Iz)) _ I) as [A|[(t' & c' & A & ->)|A]]; [exact (Q _ _ A)| |auto].
      destruct (Q _ _ A) as [B|[B|B]]; [right; left; exists t', c'; auto|auto|auto]. }
    apply G. intros z Iz. exact Iz.
Qed.
Theorem C47_expansion_commutes : forall rho b, block_is_commuting_hamiltonian b = Some true ->
  forall x c y d, In (x, c) (unroll_block_with_scaling b) -> In (y, d) (unroll_block_with_scaling b) -> seqop (den rho x) (den rho y) = seqop (den rho y) (den rho x).
Proof.
  intros rho b E x c y d Ix Iy. apply (C47_sound rho b E); [destruct (unroll_part b [] x c Ix) as [[]|[(t & e & [] & _)|P]]|destruct (unroll_part b [] y d Iy) as [[]|[(t & e & [] & _)|P]]]; exact P.
Qed.
(** The check is not complete: Z(0) + N(0) and X(0) + I(0) commute, yet the answer is False. *)
Theorem C47_complete_refuted : exists b, block_is_commuting_hamiltonian b = Some false /\ pauli_expression b /\
  (forall rho x y, part x b -> part y b -> seqop (den rho x) (den rho y) = seqop (den rho y) (den rho x)).
Proof.
  exists (BAdd [BPrim PX 0%nat; BPrim PI_ 0%nat]). split; [reflexivity|]. split; [apply C47_hamiltonian; reflexivity|].
  intros rho x y.
  assert (G : forall x, part x (BAdd [BPrim PX 0%nat; BPrim PI_ 0%nat]) -> exists m, den rho x = gate1 0 m /\ m false false = m true true /\ m false true = m true false).
  { intros z P. inversion P as [|?|?|x0 bs b I Q]; subst.
    - exists (mat2 1 1 1 1). split; [|split; reflexivity]. simpl. apply functional_extensionality. intros psi. apply functional_extensionality. intros k. unfold addop, gate1, gate, zeroop, csum. simpl. destruct (k 0%nat); simpl; ring.
    - destruct I as [<-|[<-|[]]]; inversion Q; subst; eexists; (split; [reflexivity|split; reflexivity]). }
  intros Px Py. destruct (G x Px) as (m & -> & A & B). destruct (G y Py) as (m' & -> & A' & B'). rewrite !gate1_gate1. apply gate1_ext. intros r k. unfold mmul. destruct r, k; rewrite <- ?A, <- ?B, <- ?A', <- ?B'; ring.
Qed.
Example C47_ex : block_is_commuting_hamiltonian (BAdd [BScale (BKron [BPrim PZ 0%nat; BPrim PX 1%nat]) (EVar "a"%string); BPrim PX 1%nat; BScale (BPrim PZ 0%nat) (ECst (RtoC 2))]) = Some true
  /\ block_is_commuting_hamiltonian (BAdd [BPrim PZ 0%nat; BKron [BPrim PX 0%nat; BPrim PX 1%nat]]) = Some false
  /\ block_is_commuting_hamiltonian (BChain [BPrim PZ 0%nat; BPrim PZ 1%nat]) = None
  /\ block_is_qubit_hamiltonian (BAdd [BPrim PZ 0%nat; BChain [BPrim PX 0%nat; BPrim (PN true) 1%nat]]) = true
  /\ block_is_qubit_hamiltonian (BPrim PH 0%nat) = false.
Proof. repeat split. Qed.
Print Assumptions C47_hamiltonian.
Print Assumptions C47_exact.
Print Assumptions C47_sound.
Print Assumptions C47_expansion_commutes.
Print Assumptions C47_complete_refuted.
Print Assumptions C48_sum.
Print Assumptions C48_terms.
Print Assumptions C48_terms_refuted.
