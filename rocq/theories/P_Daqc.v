(** C28: the DAQC transform. *)
From Coq Require Import String Reals ZArith List Arith Bool Lia Lra FunctionalExtensionality Permutation Sorted.
From Coquelicot Require Import Coquelicot.
From Coq Require Import List.
From Verif Require Import S_Sets S_Ops L_Ops M_QubitSupport M_Block S_Den L_Den L_Loc L_Adj L_Gates M_BlockOps L_Support L_Exp L_ExpMul L_ExpOp L_PauliExp M_Tensor M_Transpile M_PSR S_PSR P_PSR S_State L_Inner P_States P_Unitary P_Operators P_Qft P_Overlap
  M_Names M_Hamiltonians P_Hamiltonians M_Pauli P_Pauli L_Diag M_Daqc L_DaqcIx L_DaqcLin.
Import ListNotations.
Open Scope nat_scope.
Open Scope R_scope.

(** * Specification *)
(** Sums of scaled products of two equal operators on different qubits below [n], with real strengths that are not a bare parameter. *)
Inductive two_body (rho : env) (p : prim) (n : nat) : block -> Prop :=
| TBpair j k : (j < n)%nat -> (k < n)%nat -> j <> k -> two_body rho p n (BKron [BPrim p j; BPrim p k])
| TBscaled j k e : (j < n)%nat -> (k < n)%nat -> j <> k -> snd (ev rho e) = 0 -> (forall s, e <> EVar s) -> two_body rho p n (BScale (BKron [BPrim p j; BPrim p k]) e)
| TBsum bs : Forall (two_body rho p n) bs -> two_body rho p n (BAdd bs)
| TBscaled_sum bs e : Forall (two_body rho p n) bs -> snd (ev rho e) = 0 -> two_body rho p n (BScale (BAdd bs) e).
(** The total strength of the interaction of qubits [j] and [k]. *)
Fixpoint coupling (rho : env) (b : block) (j k : nat) : R :=
  match b with
  | BKron [BPrim _ a; BPrim _ c] => if (Nat.eqb a j && Nat.eqb c k) || (Nat.eqb a k && Nat.eqb c j) then 1 else 0
  | BScale b' e => fst (ev rho e) * coupling rho b' j k
  | BAdd bs => fold_right (fun b r => coupling rho b j k + r) 0 bs
  | _ => 0
  end.
(** Python iterates sets of qubits below [n] in increasing order.  CPython does so up to n = 8. *)
Definition ascending_below (n : nat) (set_iter : list nat -> list nat) : Prop :=
  forall l, (forall q, In q l -> (q < n)%nat) -> StronglySorted lt (set_iter l).
(** What torch.linalg.solve promises for the system this code gives it: an answer is a solution, and a system that has exactly one
    solution is answered. *)
Definition matvec (size : nat) (M : nat -> nat -> R) (x : list R) (i : nat) : R := rsum (map (fun j => M i j * nth j x 0) (seq 0 size)).
Definition solution (size : nat) (M : nat -> nat -> R) (r x : list R) : Prop :=
  List.length x = size /\ forall i, (i < size)%nat -> matvec size M x i = nth i r 0.
Definition solves (solve : nat -> (nat -> nat -> R) -> list R -> option (list R)) (n : nat) : Prop :=
  forall M r x, build_matrix_M n = Some M -> solve (flat_size n) M r = Some x -> solution (flat_size n) M r x.
Definition solves_all (solve : nat -> (nat -> nat -> R) -> list R -> option (list R)) (n : nat) : Prop :=
  forall M r x, build_matrix_M n = Some M -> List.length r = flat_size n -> solution (flat_size n) M r x -> (forall y, solution (flat_size n) M r y -> y = x) ->
  solve (flat_size n) M r <> None.
(** The pairs of qubits, and sums over them. *)
Definition pairs_of (n : nat) : list (nat * nat) := flat_map (fun i => map (pair i) (seq (S i) (n - S i))) (seq 0 n).
Definition over_pairs (n : nat) (h : nat * nat -> R) : R := rsum (map h (pairs_of n)).
(** Does flipping the two qubits of [p] flip the sign of the Z Z interaction on [q]? *)
Definition flips (p q : nat * nat) : R :=
  let hit a := Nat.eqb a (fst p) || Nat.eqb a (snd p) in if xorb (hit (fst q)) (hit (snd q)) then -1 else 1.
(** An N N interaction is a quarter of a Z Z interaction, up to one-qubit terms. *)
Definition zz_part (p : prim) : R := match p with PZ => 1 | _ => / 4 end.
(** The times for which the flipped build interactions add up to the target interactions. *)
Definition slice_times (rho : env) (n : nat) (pb pt : prim) (build target : block) (t_f : R) (t : nat * nat -> R) : Prop :=
  forall q, In q (pairs_of n) -> over_pairs n (fun p => flips p q * t p) =
    (if Req_EM_T (coupling rho build (fst q) (snd q)) 0 then 0 else coupling rho target (fst q) (snd q) / coupling rho build (fst q) (snd q)) * (t_f * zz_part pt / zz_part pb).
Fixpoint has_term (b : block) : bool :=
  match b with
  | BKron _ => true
  | BScale b' _ => has_term b'
  | BAdd bs => existsb has_term bs
  | _ => false
  end.

(** * Generators *)
Definition mm (j k : nat) : nat * nat := (Nat.min j k, Nat.max j k).
Definition pair_of (b : block) : nat * nat := match b with BKron [BPrim _ j; BPrim _ k] => mm j k | _ => (0%nat, 0%nat) end.
Definition str (rho : env) (bc : block * expr) : R := fst (ev rho (snd bc)).
Definition tsum (rho : env) (f : nat * nat -> R) (l : list (block * expr)) : R := rsum (map (fun bc => str rho bc * f (pair_of (fst bc))) l).
Definition good_term (rho : env) (p : prim) (n : nat) (bc : block * expr) : Prop :=
  exists j k, fst bc = BKron [BPrim p j; BPrim p k] /\ (j < n)%nat /\ (k < n)%nat /\ j <> k /\ snd (ev rho (snd bc)) = 0 /\ (forall s, snd bc <> EVar s).
Definition delta (q p : nat * nat) : R := if peqb p q then 1 else 0.
Lemma tsum_app rho f a b : tsum rho f (a ++ b) = tsum rho f a + tsum rho f b.
Proof. unfold tsum. rewrite map_app, rsum_app. reflexivity. Qed.
Lemma mm_in n j k : (j < n)%nat -> (k < n)%nat -> j <> k -> In (mm j k) (ordered_pairs n).
Proof. intros. apply in_pairs. lia. Qed.
Lemma delta_mm a c j k : (j < k)%nat -> a <> c -> delta (j, k) (mm a c) = if (Nat.eqb a j && Nat.eqb c k) || (Nat.eqb a k && Nat.eqb c j) then 1 else 0.
Proof.
  intros H Hac. unfold delta, peqb, mm. cbn [fst snd].
  assert (E : Nat.eqb (Nat.min a c) j && Nat.eqb (Nat.max a c) k = (Nat.eqb a j && Nat.eqb c k) || (Nat.eqb a k && Nat.eqb c j)).
  { apply Bool.eq_true_iff_eq. rewrite orb_true_iff, !andb_true_iff, !Nat.eqb_eq. lia. }
  rewrite E. reflexivity.
Qed.
Fixpoint two_body_ind' (rho : env) (p : prim) (n : nat) (P : block -> Prop)
  (H1 : forall j k, (j < n)%nat -> (k < n)%nat -> j <> k -> P (BKron [BPrim p j; BPrim p k]))
  (H2 : forall j k e, (j < n)%nat -> (k < n)%nat -> j <> k -> snd (ev rho e) = 0 -> (forall s, e <> EVar s) -> P (BScale (BKron [BPrim p j; BPrim p k]) e))
  (H3 : forall bs, Forall (two_body rho p n) bs -> Forall P bs -> P (BAdd bs))
  (H4 : forall bs e, Forall (two_body rho p n) bs -> Forall P bs -> snd (ev rho e) = 0 -> P (BScale (BAdd bs) e))
  (b : block) (T : two_body rho p n b) {struct T} : P b :=
  let all := fix all (bs : list block) (F : Forall (two_body rho p n) bs) {struct F} : Forall P bs :=
      match F in Forall _ l return Forall P l with
      | @Forall_nil _ _ => Forall_nil P
      | @Forall_cons _ _ x l Hx Hl => @Forall_cons _ P x l (two_body_ind' rho p n P H1 H2 H3 H4 x Hx) (all l Hl)
      end in
  match T in two_body _ _ _ b return P b with
  | TBpair j k a c d => H1 j k a c d
  | TBscaled j k e a c d f g => H2 j k e a c d f g
  | TBsum bs F => H3 bs F (all bs F)
  | TBscaled_sum bs e F h => H4 bs e F (all bs F) h
  end.
Definition unrolls (rho : env) (p : prim) (n : nat) (g : block) : Prop := forall acc, exists l, unroll g acc = acc ++ l /\ Forall (good_term rho p n) l /\
  forall j k, (j < k)%nat -> tsum rho (delta (j, k)) l = coupling rho g j k.
Lemma unrolls_list rho p n bs : Forall (unrolls rho p n) bs -> forall acc, exists l, fold_left (fun a x => unroll x a) bs acc = acc ++ l /\ Forall (good_term rho p n) l /\
  forall j k, (j < k)%nat -> tsum rho (delta (j, k)) l = coupling rho (BAdd bs) j k.
Proof.
  induction 1 as [|b bs Hb Hbs IH]; intros acc.
  - exists []. split; [rewrite app_nil_r; reflexivity|]. split; [constructor|]. intros. reflexivity.
  - destruct (Hb acc) as (l1 & E1 & G1 & C1). cbn [fold_left]. rewrite E1. destruct (IH (acc ++ l1)) as (l2 & E2 & G2 & C2).
    exists (l1 ++ l2). split; [rewrite E2, app_assoc; reflexivity|]. split; [apply Forall_app; auto|]. intros j k H. rewrite tsum_app, C1, C2 by exact H. reflexivity.
Qed.
Lemma real_mul (a b : C) : snd a = 0 -> snd b = 0 -> snd (a * b)%C = 0 /\ fst (a * b)%C = fst a * fst b.
Proof. destruct a, b; simpl; intros -> ->. split; ring. Qed.
Lemma unrolls_all rho p n g : two_body rho p n g -> unrolls rho p n g.
Proof.
  assert (Pair : forall j k e, (j < n)%nat -> (k < n)%nat -> j <> k -> snd (ev rho e) = 0 -> (forall s, e <> EVar s) -> forall acc, exists l, acc ++ [(BKron [BPrim p j; BPrim p k], e)] = acc ++ l /\
     Forall (good_term rho p n) l /\ forall a b, (a < b)%nat -> tsum rho (delta (a, b)) l = fst (ev rho e) * coupling rho (BKron [BPrim p j; BPrim p k]) a b).
  { intros j k e Hj Hk Hjk He Hs acc. eexists. split; [reflexivity|]. split; [constructor; [|constructor]; exists j, k; cbn [fst snd]; auto 10|].
    intros a b Hab. unfold tsum, str. cbn [map rsum fst snd pair_of]. rewrite delta_mm by assumption. cbn [coupling]. ring. }
  intros T. induction T using two_body_ind'; intros acc.
  - cbn [unroll]. destruct (Pair j k (ECst (RtoC 1)) ltac:(assumption) ltac:(assumption) ltac:(assumption) eq_refl (fun s => ltac:(discriminate)) acc) as (l & E & G & K).
    exists l. split; [exact E|]. split; [exact G|]. intros a b Hab. rewrite K by exact Hab. cbn [ev RtoC fst]. ring.
  - cbn [unroll]. destruct (Pair j k e ltac:(assumption) ltac:(assumption) ltac:(assumption) ltac:(assumption) ltac:(assumption) acc) as (l & E & G & K).
    exists l. split; [exact E|]. split; [exact G|]. intros a b Hab. rewrite K by exact Hab. reflexivity.
  - cbn [unroll]. apply unrolls_list. assumption.
  - cbn [unroll]. destruct (unrolls_list rho p n bs ltac:(assumption) acc) as (l & E & G & K).
    exists (map (fun bm => (fst bm, EMul e (snd bm))) l). rewrite E. rewrite firstn_app, skipn_app, Nat.sub_diag, firstn_all, skipn_all. cbn [firstn skipn app]. rewrite app_nil_r. split; [reflexivity|].
    assert (G' : Forall (good_term rho p n) (map (fun bm : block * expr => (fst bm, EMul e (snd bm))) l)).
    { apply Forall_map. eapply Forall_impl; [|exact G]. intros [b c] (j & k & E1 & K1 & K2 & K3 & K4 & K5). exists j, k. cbn [fst snd] in *. repeat (split; [assumption|]).
      split; [cbn [ev]; apply real_mul; assumption|intros s; discriminate]. }
    split; [exact G'|]. intros j k Hjk. change (coupling rho (BScale (BAdd bs) e) j k) with (fst (ev rho e) * coupling rho (BAdd bs) j k). rewrite <- K by exact Hjk. unfold tsum. rewrite map_map, <- rsum_scal.
    apply rsum_ext. intros bc I. rewrite Forall_forall in G. destruct (G bc I) as (a & b & _ & _ & _ & _ & R & _). unfold str. cbn [fst snd ev]. match goal with H : snd (ev rho e) = 0 |- _ => rewrite (proj2 (real_mul _ _ H R)) end. ring.
Qed.
(** Sums over the terms become sums over the pairs. *)
Lemma tsum_pairs rho p n f l : Forall (good_term rho p n) l -> tsum rho f l = psum n (fun q => tsum rho (delta q) l * f q).
Proof.
  intros G. unfold psum, tsum.
  rewrite (rsum_ext (fun q => rsum (map (fun bc => str rho bc * delta q (pair_of (fst bc))) l) * f q) (fun q => rsum (map (fun bc => str rho bc * delta q (pair_of (fst bc)) * f q) l))).
  - rewrite rsum_swap. apply rsum_ext. intros bc I. rewrite Forall_forall in G. destruct (G bc I) as (j & k & E & Hj & Hk & Hjk & _). rewrite E. cbn [pair_of].
    rewrite (rsum_ext _ (fun q => (if peqb (mm j k) q then 1 else 0) * (str rho bc * f q))) by (intros; unfold delta; ring).
    rewrite (rsum_delta peqb peqb_ok (fun q => str rho bc * f q)); [reflexivity|apply pairs_nodup|apply mm_in; assumption].
  - intros q _. rewrite Rmult_comm, <- rsum_scal. apply rsum_ext. intros bc _. ring.
Qed.
(** The energy of a pair in a basis state. *)
Definition pe (p : prim) (x : asg) (q : nat * nat) : R := match p with PZ => zs x (fst q) * zs x (snd q) | _ => b2r (x (fst q)) * b2r (x (snd q)) end.
Definition zorn (p : prim) : Prop := p = PZ \/ p = PN true.
Lemma pe_sym p x j k : pe p x (j, k) = pe p x (mm j k).
Proof. unfold pe, mm. cbn [fst snd]. destruct (Nat.le_ge_cases j k); [rewrite Nat.min_l, Nat.max_r by assumption|rewrite Nat.min_r, Nat.max_l by assumption]; destruct p; ring. Qed.
Lemma kron2_den rho p j k : zorn p -> den rho (BKron [BPrim p j; BPrim p k]) = rdiag (fun x => pe p x (mm j k)).
Proof.
  intros Z. change (den rho (BKron [BPrim p j; BPrim p k])) with (seqop (gate1 j (prim_mat p)) (seqop (gate1 k (prim_mat p)) idop)). rewrite seqop_id_r.
  destruct Z as [-> | ->]; rewrite ?z_rdiag, ?n_rdiag, rdiag_seq; apply rdiag_ext; intros x; rewrite <- pe_sym; reflexivity.
Qed.
Definition energy (rho : env) (p : prim) (n : nat) (g : block) (x : asg) : R := psum n (fun q => coupling rho g (fst q) (snd q) * pe p x q).
Lemma weighted_rdiag rho p n l : zorn p -> Forall (good_term rho p n) l -> weighted rho l = rdiag (fun x => tsum rho (pe p x) l).
Proof.
  intros Z. induction 1 as [|bc l (j & k & E & _ & _ & _ & R & _) _ IH]; [symmetry; exact rdiag_zero|]. unfold weighted. cbn [fold_right]. change (fold_right (fun bc A => addop (scaleop (ev rho (snd bc)) (den rho (fst bc))) A) zeroop l) with (weighted rho l). rewrite IH, E, (kron2_den rho p j k Z).
  assert (Ec : ev rho (snd bc) = RtoC (str rho bc)) by (unfold str; destruct (ev rho (snd bc)); simpl in R; rewrite R; reflexivity). rewrite Ec, rdiag_scale, rdiag_add. apply rdiag_ext. intros x. unfold tsum. cbn [map rsum]. rewrite E. reflexivity.
Qed.
Lemma two_body_den rho p n g : zorn p -> two_body rho p n g -> den rho g = rdiag (energy rho p n g).
Proof.
  intros Z T. destruct (unrolls_all rho p n g T []) as (l & E & G & K). rewrite <- C48_sum. unfold unroll_block_with_scaling. rewrite E. cbn [app]. rewrite (weighted_rdiag rho p n) by assumption.
  apply rdiag_ext. intros x. rewrite (tsum_pairs rho p n) by exact G. apply psum_ext. intros [j k] I. apply in_pairs in I. rewrite K by apply I. reflexivity.
Qed.

(** * Parsing *)
Lemma sorted_two l j k : StronglySorted lt l -> NoDup l -> (forall q, In q l <-> q = j \/ q = k) -> j <> k -> l = [Nat.min j k; Nat.max j k].
Proof.
  intros S N H D. destruct l as [|a [|b [|c l]]].
  - destruct (proj2 (H j) (or_introl eq_refl)).
  - destruct (proj2 (H j) (or_introl eq_refl)) as [E|[]]. destruct (proj2 (H k) (or_intror eq_refl)) as [E'|[]]. congruence.
  - inversion S as [|x y S1 F]; subst. inversion F; subst. destruct (proj1 (H a) (or_introl eq_refl)), (proj1 (H b) (or_intror (or_introl eq_refl))); subst; try lia.
    + rewrite Nat.min_l, Nat.max_r by lia. reflexivity.
    + rewrite Nat.min_r, Nat.max_l by lia. reflexivity.
  - exfalso. inversion N as [|x y N1 N2]; subst. inversion N2 as [|x y N3 N4]; subst.
    pose proof (proj1 (H a) (or_introl eq_refl)). pose proof (proj1 (H b) (or_intror (or_introl eq_refl))). pose proof (proj1 (H c) (or_intror (or_intror (or_introl eq_refl)))).
    simpl in N1, N3. intuition congruence.
Qed.
Lemma qs_add_neq si a b : a <> b -> qs_add si (SLocal a) (SLocal b) = SLocal (si (a ++ b)).
Proof. intros H. unfold qs_add. cbn [support_eqb]. destruct (list_eq_dec Nat.eq_dec a b); [contradiction|reflexivity]. Qed.
Lemma kron2_support si n p j k : set_order si -> ascending_below n si -> (j < n)%nat -> (k < n)%nat -> j <> k -> locals (bsup si (BKron [BPrim p j; BPrim p k])) = [Nat.min j k; Nat.max j k].
Proof.
  intros O A Hj Hk D. cbn [bsup map]. unfold sum_supports. cbn [fold_left].
  rewrite (qs_add_neq si [] [j]) by discriminate. cbn [app].
  assert (E1 : si [j] = [j]).
  { destruct (O [j]) as [N I]. destruct (si [j]) as [|a [|b l]] eqn:E; [destruct (proj2 (I j) (or_introl eq_refl))|destruct (proj1 (I a) (or_introl eq_refl)) as [->|[]]; reflexivity|].
    exfalso. destruct (proj1 (I a) (or_introl eq_refl)) as [->|[]]. destruct (proj1 (I b) (or_intror (or_introl eq_refl))) as [->|[]]. inversion N as [|x y N1 N2]. apply N1. left. reflexivity. }
  rewrite E1. rewrite (qs_add_neq si [j] [k]) by congruence. cbn [app].
  assert (E2 : forall l, (forall q, In q l <-> q = j \/ q = k) -> si l = [Nat.min j k; Nat.max j k]).
  { intros l Hl. destruct (O l) as [N I]. apply sorted_two; [|exact N| |exact D].
    - apply A. intros q Hq. apply Hl in Hq as [-> | ->]; assumption.
    - intros q. rewrite I, Hl. reflexivity. }
  rewrite (E2 [j; k]) by (intros q; simpl; intuition congruence). rewrite qs_add_neq by discriminate. cbn [app locals].
  apply E2. intros q. simpl. destruct (Nat.le_ge_cases j k); [rewrite Nat.min_l, Nat.max_r by assumption|rewrite Nat.min_r, Nat.max_l by assumption]; intuition congruence.
Qed.
Definition gty (p : prim) : gen_type := match p with PZ => GZZ | _ => GNN end.
Lemma bump_length l i v : List.length (bump l i v) = List.length l.
Proof. revert i. induction l as [|x l IH]; intros [|i]; simpl; auto. Qed.
Lemma bump_nth l i v j : (i < List.length l)%nat -> nth j (bump l i v) 0 = nth j l 0 + (if Nat.eqb i j then v else 0).
Proof.
  revert i j. induction l as [|x l IH]; intros [|i] [|j] H; simpl in *; try lia; try ring; [rewrite IH by lia; reflexivity].
Qed.
Lemma pix_eqb n p q : In p (ordered_pairs n) -> In q (ordered_pairs n) -> Nat.eqb (pix n p) (pix n q) = peqb p q.
Proof.
  intros Hp Hq. apply Bool.eq_true_iff_eq. rewrite Nat.eqb_eq, peqb_ok. split; [apply pix_inj; assumption|congruence].
Qed.
Lemma parse_terms si rho p n zt l : set_order si -> ascending_below n si -> zorn p -> Forall (good_term rho p n) l -> forall s, List.length (p_list s) = flat_size n ->
  exists s', fold_left (fun acc bc => match acc with Some s => parse_term si rho n zt s bc | None => None end) l (Some s) = Some s' /\ List.length (p_list s') = flat_size n /\
    (forall q, In q (ordered_pairs n) -> at_pair n (p_list s') q = at_pair n (p_list s) q + tsum rho (delta q) l) /\
    (forall j k, p_mat s' j k = p_mat s j k + (if Nat.eqb j k then 0 else tsum rho (delta (mm j k)) l)) /\
    p_types s' = p_types s ++ repeat (gty p) (2 * List.length l).
Proof.
  intros O A Z G. induction G as [|bc l (j & k & E & Hj & Hk & D & R & V) G IH]; intros s L.
  - exists s. split; [reflexivity|]. split; [exact L|]. split; [intros q _; unfold tsum; simpl; ring|]. split; [intros a b; destruct (Nat.eqb a b); unfold tsum; simpl; ring|]. simpl. rewrite app_nil_r. reflexivity.
  - cbn [fold_left]. destruct bc as [b e]. cbn [fst snd] in *. subst b.
    set (v := fst (ev rho e)).
    pose (s1 := PS_ (bump (p_list s) (pix n (mm j k)) v) (bump_mat (bump_mat (p_mat s) (Nat.min j k) (Nat.max j k) v) (Nat.max j k) (Nat.min j k) v) (p_types s ++ [gty p; gty p])).
    assert (S1 : parse_term si rho n zt s (BKron [BPrim p j; BPrim p k], e) = Some s1).
    { assert (P : parse_term si rho n zt s (BKron [BPrim p j; BPrim p k], e) = match paulis_types [BPrim p j; BPrim p k], locals (bsup si (BKron [BPrim p j; BPrim p k])) with
            | Some ts, [j; k] =>
                if Req_EM_T (snd (ev rho e)) 0 then
                  match tpos (flat_size n) (ix_map n (j + 1) (k + 1) - 1) with
                  | Some beta =>
                      if (j <? n)%nat && (k <? n)%nat
                      then Some (PS_ (bump (p_list s) beta (fst (ev rho e)))
                                     (bump_mat (bump_mat (p_mat s) j k (fst (ev rho e))) k j (fst (ev rho e)))
                                     (p_types s ++ ts))
                      else None
                  | None => None
                  end
                else None
            | _, _ => None
            end).
      { unfold parse_term. cbn [fst snd]. destruct e as [c|s0| | | | | |]; try reflexivity. exfalso. exact (V s0 eq_refl). }
      rewrite P, (kron2_support si n p j k O A Hj Hk D).
      assert (PT : paulis_types [BPrim p j; BPrim p k] = Some [gty p; gty p]) by (destruct Z as [-> | ->]; reflexivity). rewrite PT.
      destruct (Req_EM_T (snd (ev rho e)) 0) as [_|F]; [|contradiction]. rewrite ix_pix by lia.
      rewrite (proj2 (Nat.ltb_lt (Nat.min j k) n)) by lia. rewrite (proj2 (Nat.ltb_lt (Nat.max j k) n)) by lia. reflexivity. }
    rewrite S1. assert (L1 : List.length (p_list s1) = flat_size n) by (unfold s1; cbn [p_list]; rewrite bump_length; exact L).
    destruct (IH s1 L1) as (s' & F & L' & Q & M & T). exists s'. split; [exact F|]. split; [exact L'|].
    assert (Ip : In (mm j k) (ordered_pairs n)) by (apply mm_in; assumption).
    split; [|split].
    + intros q I. rewrite Q by exact I. unfold s1. cbn [p_list]. unfold at_pair at 1. rewrite bump_nth by (rewrite L; apply in_pairs_pix; exact Ip). rewrite pix_eqb by assumption.
      unfold at_pair, tsum, str, delta. cbn [map rsum fst snd pair_of]. fold v. destruct (peqb (mm j k) q); ring.
    + intros a b. rewrite M. unfold s1. cbn [p_mat]. unfold bump_mat, set_entry. unfold tsum. cbn [map rsum fst snd pair_of]. unfold str at 2. cbn [snd]. fold v. unfold delta at 2. unfold mm, peqb. cbn [fst snd].
      destruct (Nat.eqb_spec a b) as [->|Hab].
      * replace (Nat.eqb b (Nat.max j k) && Nat.eqb b (Nat.min j k)) with false; [|symmetry; apply andb_false_iff; destruct (Nat.eqb_spec b (Nat.max j k)); [right; apply Nat.eqb_neq; lia|left; reflexivity]].
        replace (Nat.eqb b (Nat.min j k) && Nat.eqb b (Nat.max j k)) with false; [|symmetry; apply andb_false_iff; destruct (Nat.eqb_spec b (Nat.min j k)); [right; apply Nat.eqb_neq; lia|left; reflexivity]]. ring.
      * destruct (Nat.eqb_spec a (Nat.max j k)), (Nat.eqb_spec b (Nat.min j k)), (Nat.eqb_spec a (Nat.min j k)), (Nat.eqb_spec b (Nat.max j k)), (Nat.eqb_spec (Nat.min j k) (Nat.min a b)), (Nat.eqb_spec (Nat.max j k) (Nat.max a b)),
          (Nat.eqb_spec (Nat.max j k) (Nat.min j k)), (Nat.eqb_spec (Nat.min j k) (Nat.max j k)); cbn [andb]; try (exfalso; lia); try ring;
          (match goal with |- p_mat s ?u ?w + v + _ = p_mat s a b + _ => replace u with a by lia; replace w with b by lia end; ring).
    + rewrite T. unfold s1. cbn [p_types]. rewrite <- app_assoc. f_equal. cbn [List.length]. replace (2 * S (List.length l))%nat with (S (S (2 * List.length l))) by lia. reflexivity.
Qed.
Definition nz (zt v : R) : R := if Req_EM_T v 0 then zt else v.
Lemma parse_ok si rho p n g zt gl mat ty : set_order si -> ascending_below n si -> zorn p -> two_body rho p n g -> parse_generator si rho n g zt = Some (gl, mat, ty) ->
  ty = gty p /\ List.length gl = flat_size n /\ (forall q, In q (ordered_pairs n) -> at_pair n gl q = nz zt (coupling rho g (fst q) (snd q))) /\
  (forall j k, mat j k = if Nat.eqb j k then 0 else coupling rho g (fst (mm j k)) (snd (mm j k))).
Proof.
  intros O A Z T. destruct (unrolls_all rho p n g T []) as (l & E & G & K). unfold parse_generator, unroll_block_with_scaling. rewrite E. cbn [app].
  destruct (parse_terms si rho p n zt l O A Z G (PS_ (repeat 0 (flat_size n)) (fun _ _ => 0) []) (repeat_length _ _)) as (s & F & L & Q & M & Ty). rewrite F.
  destruct (type_of (p_types s)) as [ty0|] eqn:TY; [|discriminate]. intros X. injection X as <- <- <-. split.
  - rewrite Ty in TY. cbn [p_types app] in TY. destruct l as [|bc l]; [discriminate|]. cbn [List.length] in TY. replace (2 * S (List.length l))%nat with (S (S (2 * List.length l))) in TY by lia. cbn [repeat] in TY.
    unfold type_of in TY. assert (R : forall m t, forallb is_zz (repeat t m) = match m with O => true | _ => is_zz t end /\ forallb (fun t => negb (is_zz t)) (repeat t m) = match m with O => true | _ => negb (is_zz t) end).
    { clear. intros m t. induction m as [|m [I1 I2]]; [auto|]. cbn [repeat forallb]. rewrite I1, I2. destruct m, t; auto. }
    change (gty p :: gty p :: repeat (gty p) (2 * List.length l)) with (repeat (gty p) (S (S (2 * List.length l)))) in TY. rewrite (proj1 (R _ _)), (proj2 (R _ _)) in TY. destruct (gty p); simpl in TY; congruence.
  - split; [rewrite map_length; exact L|]. split.
    + intros [j k] I. unfold at_pair. rewrite (nth_indep _ 0 (nz zt 0)) by (rewrite map_length, L; apply in_pairs_pix; exact I).
      change (map (fun v => if Req_EM_T v 0 then zt else v) (p_list s)) with (map (nz zt) (p_list s)). rewrite map_nth. f_equal. change (nth (pix n (j, k)) (p_list s) 0) with (at_pair n (p_list s) (j, k)).
      rewrite Q by exact I. cbn [p_list fst snd]. unfold at_pair. rewrite nth_repeat. apply in_pairs in I. rewrite K by lia. ring.
    + intros j k. rewrite M. cbn [p_mat]. destruct (Nat.eqb_spec j k); [ring|]. cbn [mm fst snd]. unfold mm. rewrite K by lia. cbn [fst snd]. ring.
Qed.

(** * Number operators *)
Lemma lsum_rsum l : lsum l = rsum l.
Proof. induction l as [|a l IH]; [reflexivity|]. simpl. rewrite IH. reflexivity. Qed.
Section NN.
  Variables (n : nat) (mat : nat -> nat -> R) (f : nat * nat -> R).
  Hypothesis Hm : forall j k, mat j k = if Nat.eqb j k then 0 else f (mm j k).
  Lemma ind_mm j k p : ind (Nat.min j k) p * ind (Nat.max j k) p = ind j p * ind k p.
  Proof. destruct (Nat.le_ge_cases j k); [rewrite Nat.min_l, Nat.max_r by assumption; ring|rewrite Nat.min_r, Nat.max_l by assumption; ring]. Qed.
  Lemma mat_col i : (i < n)%nat -> mat_column n mat i = row n f i.
  Proof.
    intros Hi. unfold mat_column. rewrite lsum_rsum.
    rewrite (rsum_ext _ (fun j => psum n (fun p => ind i p * (ind j p - (if Nat.eqb i j then 1 else 0)) * f p))).
    - unfold psum. rewrite rsum_swap. apply rsum_ext. intros p I.
      rewrite (rsum_ext _ (fun j => (ind i p * f p) * ind j p + (- (ind i p * f p)) * ((if Nat.eqb i j then 1 else 0) * 1))) by (intros; ring).
      rewrite rsum_plus, !rsum_scal, ind_weights1 by exact I. rewrite (qsum_delta n i (fun _ => 1) Hi). ring.
    - intros j Hj. apply in_seq in Hj. rewrite Hm, Nat.eqb_sym. destruct (Nat.eqb_spec i j) as [<-|D].
      + rewrite (psum_ext n _ (fun p => 0 * f p)); [rewrite psum_scal; ring|]. intros p _. unfold ind. destruct (touches i p); ring.
      + unfold mm. rewrite <- (ind_pair n (Nat.min j i) (Nat.max j i) f) by (apply in_pairs; lia). apply psum_ext. intros p _. rewrite ind_mm. ring.
  Qed.
  Lemma mat_tot : mat_total n mat = 2 * psum n f.
  Proof.
    unfold mat_total. rewrite lsum_rsum. rewrite (rsum_ext _ (fun j => rsum (map (fun k => mat j k) (seq 0 n)))) by (intros; apply lsum_rsum).
    rewrite rsum_swap, <- row_total. apply rsum_ext. intros i Hi. apply in_seq in Hi. rewrite <- mat_col by lia. unfold mat_column. symmetry. apply lsum_rsum.
  Qed.
End NN.
Definition zz (n : nat) (f : nat * nat -> R) (x : asg) : R := psum n (fun q => f q * pe PZ x q).
Definition nn (n : nat) (f : nat * nat -> R) (x : asg) : R := psum n (fun q => f q * pe (PN true) x q).
Definition det (n : nat) (f : nat * nat -> R) (x : asg) : R := - psum n (fun q => f q * ((b2r (x (fst q)) + b2r (x (snd q))) / 2)).
Lemma nn_zz n f x : nn n f x + det n f x = zz n f x / 4 - psum n f / 4.
Proof.
  unfold nn, det, zz. replace (psum n (fun q => f q * pe PZ x q) / 4 - psum n f / 4) with (/ 4 * psum n (fun q => f q * pe PZ x q) + (- / 4) * psum n f) by field.
  replace (- psum n (fun q => f q * ((b2r (x (fst q)) + b2r (x (snd q))) / 2))) with ((-1) * psum n (fun q => f q * ((b2r (x (fst q)) + b2r (x (snd q))) / 2))) by ring.
  rewrite <- !psum_scal, <- !psum_plus. apply psum_ext. intros q _. cbn [pe]. rewrite !b2r_zs. field.
Qed.
Lemma ang_num rho t : ang rho (num t) = t.
Proof. reflexivity. Qed.
Lemma identity_den rho l : dchain rho (map (BPrim PI_) l) = idop.
Proof.
  induction l as [|q l IH]; [reflexivity|]. cbn [map]. change (seqop (gate1 q (prim_mat PI_)) (dchain rho (map (BPrim PI_) l)) = idop). rewrite IH, seqop_id_r. apply gate1_id. intros [] []; reflexivity.
Qed.
Lemma phase_detunings si rho n mat f hp hs : set_order si -> (forall j k, mat j k = if Nat.eqb j k then 0 else f (mm j k)) -> nn_phase_and_detunings si n mat = Some (hp, hs) ->
  den rho hp = rdiag (fun _ => psum n f / 4) /\ den rho hs = rdiag (det n f).
Proof.
  intros O Hm. unfold nn_phase_and_detunings. destruct (mk_kron si (map (BPrim PI_) (seq 0 n))) as [id|] eqn:E; [|discriminate]. cbn [option_map]. intros X. injection X as <- <-.
  assert (Eid : id = BKron (map (BPrim PI_) (seq 0 n))) by (unfold mk_kron in E; destruct (map (BPrim PI_) (seq 0 n)); [discriminate|]; destruct (kron_check _ _ _); congruence).
  split.
  - subst id. cbn [op_scale]. change (scaleop (RtoC (mat_total n mat / 8)) (dchain rho (map (BPrim PI_) (seq 0 n))) = rdiag (fun _ => psum n f / 4)). rewrite identity_den, <- rdiag_id, rdiag_scale. apply rdiag_ext. intros x. rewrite (mat_tot n mat f Hm). field.
  - change (dadd rho (map (fun i => op_scale (BPrim (PN true) i) (num (-1 * (mat_column n mat i / 2)))) (seq 0 n)) = rdiag (det n f)).
    assert (G : forall l, dadd rho (map (fun i => op_scale (BPrim (PN true) i) (num (-1 * (mat_column n mat i / 2)))) l) = rdiag (fun x => rsum (map (fun i => -1 * (mat_column n mat i / 2) * b2r (x i)) l))).
    { induction l as [|i l IH]; [symmetry; exact rdiag_zero|]. cbn [map]. change (addop (scaleop (RtoC (-1 * (mat_column n mat i / 2))) (gate1 i (prim_mat (PN true)))) (dadd rho (map (fun i => op_scale (BPrim (PN true) i) (num (-1 * (mat_column n mat i / 2)))) l)) = rdiag (fun x => rsum (map (fun i => -1 * (mat_column n mat i / 2) * b2r (x i)) (i :: l)))).
      rewrite IH, n_rdiag, rdiag_scale, rdiag_add. apply rdiag_ext. intros x. reflexivity. }
    rewrite G. apply rdiag_ext. intros x. unfold det.
    rewrite (rsum_ext _ (fun i => psum n (fun p => ind i p * (b2r (x i)) * (- / 2 * f p)))).
    + unfold psum. rewrite rsum_swap. 
      rewrite (rsum_ext _ (fun p => -1 * (f p * ((b2r (x (fst p)) + b2r (x (snd p))) / 2)))); [rewrite rsum_scal; ring|].
      intros p I. rewrite (rsum_ext _ (fun i => (- / 2 * f p) * (ind i p * b2r (x i)))) by (intros; ring). rewrite rsum_scal, (ind_weights n p (fun i => b2r (x i)) I). field.
    + intros i Hi. apply in_seq in Hi. rewrite (mat_col n mat f Hm) by lia. unfold row. rewrite (psum_ext n (fun p => ind i p * b2r (x i) * (- / 2 * f p)) (fun p => (- / 2 * b2r (x i)) * (ind i p * f p))) by (intros; ring). rewrite psum_scal. field.
Qed.
(** * Slices *)
Definition flip (p : nat * nat) (x : asg) : asg := upd (upd x (fst p) (negb (x (fst p)))) (snd p) (negb (x (snd p))).
Lemma flip_zs p x a : fst p <> snd p -> zs (flip p x) a = zsgn a p * zs x a.
Proof.
  intros H. unfold zs, flip, zsgn, touches, upd. destruct (Nat.eqb_spec a (snd p)) as [H1|H1], (Nat.eqb_spec a (fst p)) as [H2|H2]; cbn [orb]; try congruence.
  - rewrite H1. destruct (x (snd p)); simpl; ring.
  - rewrite H2. destruct (x (fst p)); simpl; ring.
  - ring.
Qed.
Lemma flip_pe p x q : fst p <> snd p -> pe PZ (flip p x) q = sgn p q * pe PZ x q.
Proof. intros H. unfold pe, sgn. rewrite !flip_zs by exact H. ring. Qed.
Lemma flip_flip p x : fst p <> snd p -> flip p (flip p x) = x.
Proof.
  intros H. extensionality a. unfold flip, upd. rewrite !Nat.eqb_refl. rewrite (proj2 (Nat.eqb_neq (fst p) (snd p)) H).
  destruct (Nat.eqb_spec a (snd p)) as [->|H1]; [apply negb_involutive|]. destruct (Nat.eqb_spec a (fst p)) as [->|H2]; [apply negb_involutive|reflexivity].
Qed.
Lemma xx_den rho j k : j <> k -> den rho (BKron [BPrim PX j; BPrim PX k]) = fun psi x => psi (flip (j, k) x).
Proof.
  intros H. extensionality psi. extensionality x. change (gate1 k (prim_mat PX) (gate1 j (prim_mat PX) psi) x = psi (flip (j, k) x)).
  assert (X : forall q psi x, gate1 q (prim_mat PX) psi x = psi (upd x q (negb (x q)))).
  { intros q ps y. rewrite gate1_eq. destruct (y q); cbn [prim_mat mat2 negb]; apply Ceq; simpl; ring. }
  rewrite !X. f_equal. unfold flip. cbn [fst snd]. extensionality a. unfold upd.
  rewrite (proj2 (Nat.eqb_neq j k) H). destruct (Nat.eqb_spec a j) as [->|]; [rewrite (proj2 (Nat.eqb_neq j k) H); reflexivity|reflexivity].
Qed.
Definition kept (n : nat) (ts : list R) (zt : R) (p : nat * nat) : bool := if Rlt_dec zt (Rabs (at_pair n ts p)) then true else false.
Lemma slices_den si rho n build dt Eb ts zt : set_order si ->
  (match dt with Some h => exists Eg Eh, den rho build = rdiag Eg /\ den rho h = rdiag Eh /\ forall x, Eb x = Eh x + Eg x | None => den rho build = rdiag Eb end) ->
  forall ps, (forall p, In p ps -> In p (loop_pairs n)) -> exists sl, slices si n build dt ts zt ps = Some sl /\
    dchain rho sl = diag (fun x => rsum (map (fun p => if kept n ts zt p then - (at_pair n ts p * Eb (flip p x)) else 0) (map dec1 ps))).
Proof.
  intros O HB. induction ps as [|[a m] ps IH]; intros Hps.
  - exists []. split; [reflexivity|]. cbn [map rsum]. symmetry. apply diag_0. reflexivity.
  - destruct (IH (fun p I => Hps p (or_intror I))) as (sl & E & D). pose proof (Hps _ (or_introl eq_refl)) as I0. pose proof (loop_in _ _ _ I0) as B. cbn [slices]. rewrite (loop_ix n (a, m) I0 : tpos (flat_size n) (ix_map n a m - 1) = _), E.
    change (nth (pix n (dec1 (a, m))) ts 0) with (at_pair n ts (dec1 (a, m))). cbn [map rsum]. unfold kept at 1. set (t := at_pair n ts (dec1 (a, m))).
    destruct (Rlt_dec zt (Rabs t)) as [Hk|Hk].
    + assert (K : mk_kron si [BPrim PX (a - 1); BPrim PX (m - 1)] = Some (BKron [BPrim PX (a - 1); BPrim PX (m - 1)])).
      { apply kron_ok; [exact O|discriminate|]. constructor; [constructor; [|constructor]|constructor; [constructor|constructor]]. intros q [<-|[]] [E'|[]]. lia. }
      rewrite K. eexists. split; [reflexivity|].
      assert (S : den rho (match dt with Some h => BChain [BKron [BPrim PX (a - 1); BPrim PX (m - 1)]; BEvo h (num t); BEvo build (num t); BKron [BPrim PX (a - 1); BPrim PX (m - 1)]] | None => BChain [BKron [BPrim PX (a - 1); BPrim PX (m - 1)]; BEvo build (num t); BKron [BPrim PX (a - 1); BPrim PX (m - 1)]] end) = diag (fun x => - (t * Eb (flip (dec1 (a, m)) x)))).
      { assert (Hn : (a - 1)%nat <> (m - 1)%nat) by lia. pose proof (xx_den rho (a - 1) (m - 1) Hn) as XX.
        destruct dt as [h|].
        - destruct HB as (Eg & Eh & HG & HH & HE).
          change (seqop (den rho (BKron [BPrim PX (a - 1); BPrim PX (m - 1)])) (seqop (den rho (BEvo h (num t))) (seqop (den rho (BEvo build (num t))) (seqop (den rho (BKron [BPrim PX (a - 1); BPrim PX (m - 1)])) idop))) = diag (fun x => - (t * Eb (flip (dec1 (a, m)) x)))).
          rewrite (evo_rdiag rho h (num t) Eh HH), (evo_rdiag rho build (num t) Eg HG), XX, !ang_num. extensionality psi. extensionality x. unfold seqop, diag, idop. change (dec1 (a, m)) with (a - 1, m - 1)%nat.
          rewrite flip_flip by exact Hn. rewrite HE, Cmult_assoc, cis_add. f_equal. f_equal. ring.
        - change (seqop (den rho (BKron [BPrim PX (a - 1); BPrim PX (m - 1)])) (seqop (den rho (BEvo build (num t))) (seqop (den rho (BKron [BPrim PX (a - 1); BPrim PX (m - 1)])) idop)) = diag (fun x => - (t * Eb (flip (dec1 (a, m)) x)))).
          rewrite (evo_rdiag rho build (num t) Eb HB), XX, !ang_num. extensionality psi. extensionality x. unfold seqop, diag, idop. change (dec1 (a, m)) with (a - 1, m - 1)%nat. rewrite flip_flip by exact Hn. reflexivity. }
      match goal with |- dchain rho (?b :: sl) = _ => change (seqop (den rho b) (dchain rho sl) = diag (fun x => - (t * Eb (flip (dec1 (a, m)) x)) + rsum (map (fun p => if kept n ts zt p then - (at_pair n ts p * Eb (flip p x)) else 0) (map dec1 ps)))) end.
      rewrite S, D, diag_seq. reflexivity.
    + exists sl. split; [reflexivity|]. rewrite D. apply diag_ext. intros x. ring.
Qed.

(** * The transform *)
Definition kz (p : prim) : R := match p with PZ => 1 | _ => / 4 end.
Definition shift (p : prim) (n : nat) (f : nat * nat -> R) : R := match p with PZ => 0 | _ => psum n f / 4 end.
Definition cpl (rho : env) (g : block) (q : nat * nat) : R := coupling rho g (fst q) (snd q).
Definition tstar (pb pt : prim) (t : R) : R := match gty pb, gty pt with GZZ, GNN => t / 4 | GNN, GZZ => 4 * t | _, _ => t end.
Lemma tstar_k pb pt t : zorn pb -> zorn pt -> tstar pb pt t * kz pb = t * kz pt.
Proof. intros [-> | ->] [-> | ->]; unfold tstar, kz; simpl; field. Qed.
Definition small (T : nat * nat -> R) (zt : R) (p : nat * nat) : bool := if Rlt_dec zt (Rabs (T p)) then false else true.
Definition err_ (n : nat) (pb pt : prim) (f g T : nat * nat -> R) (zt t_f : R) (x : asg) : R :=
  psum n (fun p => if small T zt p then T p * (kz pb * zz n f (flip p x) - shift pb n f) else 0) +
  kz pt * t_f * psum n (fun q => if Req_EM_T (f q) 0 then g q * pe PZ x q else 0).
Definition phase_ (n : nat) (pb pt : prim) (f g T : nat * nat -> R) (t_f : R) : R := psum n T * shift pb n f - t_f * shift pt n g.
Lemma nz_nonzero zt v : 0 < zt -> nz zt v <> 0.
Proof. intros H. unfold nz. destruct (Req_EM_T v 0); lra. Qed.
Lemma combine_map {A B D} (a : A -> B) (b : A -> D) l : combine (map a l) (map b l) = map (fun x => (a x, b x)) l.
Proof. induction l as [|x l IH]; [reflexivity|]. simpl. rewrite IH. reflexivity. Qed.
Lemma zz_flips n f T x : psum n (fun p => T p * zz n f (flip p x)) = psum n (fun q => f q * pe PZ x q * psum n (fun p => sgn p q * T p)).
Proof.
  unfold zz. rewrite (psum_ext n _ (fun p => psum n (fun q => f q * pe PZ x q * (sgn p q * T p)))).
  - unfold psum. rewrite rsum_swap. apply rsum_ext. intros q _. rewrite rsum_scal. reflexivity.
  - intros p I. destruct (pair_bounds n p I) as (_ & _ & B). rewrite <- psum_scal. apply psum_ext. intros q _. rewrite flip_pe by lia. ring.
Qed.
Lemma den_cons2 rho a b : den rho (BChain [a; b]) = seqop (den rho a) (den rho b).
Proof. reflexivity. Qed.
Lemma evo_dagger rho h t E : den rho h = rdiag E -> den rho (dagger (BEvo h (num t))) = diag (fun x => t * E x).
Proof. intros H. change (dagger (BEvo h (num t))) with (BEvo h (ENeg (num t))). rewrite (evo_rdiag rho h _ E H). apply diag_ext. intros x. unfold ang. simpl. ring. Qed.
Lemma energy_split rho p n g x : zorn p -> energy rho p n g x = kz p * zz n (cpl rho g) x - shift p n (cpl rho g) - (match p with PZ => 0 | _ => det n (cpl rho g) x end).
Proof.
  intros [-> | ->]; unfold energy, kz, shift.
  - unfold zz, cpl. ring.
  - change (psum n (fun q => coupling rho g (fst q) (snd q) * pe (PN true) x q)) with (nn n (cpl rho g) x). pose proof (nn_zz n (cpl rho g) x). lra.
Qed.
Lemma some_eq {A} (x y : A) : Some x = Some y -> x = y.
Proof. congruence. Qed.
Theorem daqc_core : forall set_iter rho solve n pb pt build target t_f zt ignore b,
  set_order set_iter -> ascending_below n set_iter -> solves solve n -> 0 < zt -> zorn pb -> zorn pt -> two_body rho pb n build -> two_body rho pt n target ->
  daqc_transform set_iter rho solve n target t_f (Some build) zt true ignore = Some b ->
  exists T : nat * nat -> R,
    (forall q, In q (ordered_pairs n) -> psum n (fun p => sgn p q * T p) = cpl rho target q / nz zt (cpl rho build q) * tstar pb pt t_f) /\
    (forall q, In q (ordered_pairs n) -> cpl rho build q = 0 -> Rabs (cpl rho target q) <= zt) /\
    n <> 4%nat /\
    forall psi x, (den rho b psi x = cis ((if ignore then phase_ n pb pt (cpl rho build) (cpl rho target) T t_f else 0) + err_ n pb pt (cpl rho build) (cpl rho target) T zt t_f x) * den rho (BEvo target (num t_f)) psi x)%C.
Proof.
  intros si rho solve n pb pt build target t_f zt ignore b O A SV Hz Zb Zt TB TT H.
  unfold daqc_transform in H. cbn [negb] in H. destruct (Nat.eqb_spec n 4) as [|N4]; [discriminate|]. cbn [obind] in H.
  destruct (negb (block_is_qubit_hamiltonian target) || negb (block_is_qubit_hamiltonian build)); [discriminate|].
  destruct (parse_generator si rho n target 0) as [[[gt mt] tyt]|] eqn:PT; [|discriminate]. cbn [obind] in H.
  destruct (parse_generator si rho n build zt) as [[[gb mb] tyb]|] eqn:PB; [|discriminate]. cbn [obind] in H.
  destruct (parse_ok si rho pt n target 0 gt mt tyt O A Zt TT PT) as (Et & Lt & Qt & Mt).
  destruct (parse_ok si rho pb n build zt gb mb tyb O A Zb TB PB) as (Eb & Lb & Qb & Mb).
  set (f := cpl rho build). set (g := cpl rho target).
  assert (Qt' : forall q, In q (ordered_pairs n) -> at_pair n gt q = g q).
  { intros q I. rewrite Qt by exact I. fold (cpl rho target q). fold (g q). unfold nz. destruct (Req_EM_T (g q) 0); congruence. }
  destruct (match tyb with GNN => option_map Some (nn_phase_and_detunings si n mb) | GZZ => Some None end) as [auxb|] eqn:AB; [|discriminate]. cbn [obind] in H.
  destruct (match tyt with GNN => option_map Some (nn_phase_and_detunings si n mt) | GZZ => Some None end) as [auxt|] eqn:AT; [|discriminate]. cbn [obind] in H.
  destruct (check_compatibility gt gb zt) eqn:CC; [|discriminate].
  destruct (build_matrix_ok n) as (M & EM & HM). rewrite EM in H. cbn [obind] in H.
  assert (RL : map (fun gg : R * R => fst gg / snd gg) (combine gt gb) = map (fun q => at_pair n gt q / at_pair n gb q) (ordered_pairs n)).
  { rewrite (flat_list n gt Lt) at 1. rewrite (flat_list n gb Lb) at 1. rewrite combine_map, map_map. reflexivity. }
  rewrite RL in H. destruct (solve (flat_size n) M _) as [x|] eqn:SO; [|discriminate]. cbn [obind] in H. apply (SV _ _ _ EM) in SO as [Lx Sx].
  set (ts := match tyb, tyt with GZZ, GNN => t_f / 4 | GNN, GZZ => 4 * t_f | _, _ => t_f end) in H.
  assert (Ets : ts = tstar pb pt t_f) by (unfold ts, tstar; rewrite Et, Eb; reflexivity). clearbody ts. subst ts.
  set (tl := map (fun v => v * tstar pb pt t_f) x) in H. set (T := at_pair n tl).
  assert (ET : forall p, T p = at_pair n x p * tstar pb pt t_f).
  { intros p. unfold T, tl, at_pair. change 0 with ((fun v => v * tstar pb pt t_f) 0) at 1 || idtac. rewrite <- (map_nth (fun v => v * tstar pb pt t_f)). f_equal. ring. }
  assert (Ltl : List.length tl = flat_size n) by (unfold tl; rewrite map_length; exact Lx).
  assert (ES : lsum tl = psum n T) by (rewrite lsum_rsum; rewrite (flat_list n tl Ltl); reflexivity).
  assert (SYS : forall q, In q (ordered_pairs n) -> psum n (fun p => sgn p q * T p) = g q / nz zt (f q) * tstar pb pt t_f).
  { intros q I. specialize (Sx (pix n q) (in_pairs_pix n q I)). unfold matvec in Sx. rewrite <- pairs_index, map_map in Sx.
    change (nth (pix n q) (map (fun q => at_pair n gt q / at_pair n gb q) (ordered_pairs n)) 0) with (at_pair n (map (fun q => at_pair n gt q / at_pair n gb q) (ordered_pairs n)) q) in Sx. rewrite at_pair_map in Sx by exact I.
    rewrite Qt', Qb in Sx by exact I. fold (cpl rho build q) in Sx. fold (f q) in Sx. rewrite <- Sx, Rmult_comm. rewrite <- rsum_scal. apply rsum_ext. intros p J. rewrite HM by assumption. rewrite ET.
    destruct (pair_bounds n p J) as (_ & _ & B1). destruct (pair_bounds n q I) as (_ & _ & B2). rewrite (sgn_sym p q B1 B2). unfold at_pair. ring. }
  assert (COV : forall q, In q (ordered_pairs n) -> f q = 0 -> Rabs (g q) <= zt).
  { intros q I F0. unfold check_compatibility in CC. rewrite (flat_list n gt Lt), (flat_list n gb Lb), combine_map in CC. rewrite forallb_forall in CC.
    assert (J : In (at_pair n gt q, at_pair n gb q) (map (fun x => (at_pair n gt x, at_pair n gb x)) (ordered_pairs n))) by (apply (in_map (fun x => (at_pair n gt x, at_pair n gb x))); exact I).
    specialize (CC _ J). cbn [fst snd] in CC. rewrite Qt', Qb in CC by exact I. fold (cpl rho build q) in CC. fold (f q) in CC. rewrite F0 in CC. unfold nz in CC. destruct (Req_EM_T 0 0) as [_|C0]; [|congruence].
    destruct (Rlt_dec zt (Rabs (g q))) as [L|L]; [|lra]. destruct (Rle_dec (Rabs zt) zt) as [L'|L']; [discriminate|]. rewrite Rabs_pos_eq in L' by lra. lra. }
  exists T. split; [exact SYS|]. split; [exact COV|]. split; [exact N4|].
  (* the build energies *)
  pose (Ebd := fun y => kz pb * zz n f y - shift pb n f).
  assert (DB : den rho build = rdiag (energy rho pb n build)) by (apply two_body_den; assumption).
  assert (DT : den rho target = rdiag (energy rho pt n target)) by (apply two_body_den; assumption).
  assert (AUXB : match auxb with Some (hp, hs) => pb = PN true /\ den rho hp = rdiag (fun _ => psum n f / 4) /\ den rho hs = rdiag (det n f) | None => pb = PZ end).
  { destruct Zb as [-> | ->]; rewrite Eb in AB; cbn [gty] in AB.
    - injection AB as <-. reflexivity.
    - destruct (nn_phase_and_detunings si n mb) as [[hp hs]|] eqn:ND; [|discriminate]. cbn [option_map] in AB. injection AB as <-. split; [reflexivity|]. exact (phase_detunings si rho n mb f hp hs O Mb ND). }
  assert (AUXT : match auxt with Some (hp, hs) => pt = PN true /\ den rho hp = rdiag (fun _ => psum n g / 4) /\ den rho hs = rdiag (det n g) | None => pt = PZ end).
  { destruct Zt as [-> | ->]; rewrite Et in AT; cbn [gty] in AT.
    - injection AT as <-. reflexivity.
    - destruct (nn_phase_and_detunings si n mt) as [[hp hs]|] eqn:ND; [|discriminate]. cbn [option_map] in AT. injection AT as <-. split; [reflexivity|]. exact (phase_detunings si rho n mt g hp hs O Mt ND). }
  assert (SLH : match option_map snd auxb with Some h => exists Eg Eh, den rho build = rdiag Eg /\ den rho h = rdiag Eh /\ forall x, Ebd x = Eh x + Eg x | None => den rho build = rdiag Ebd end).
  { destruct auxb as [[hp hs]|]; cbn [option_map snd].
    - destruct AUXB as (-> & _ & Hs). exists (energy rho (PN true) n build), (det n f). split; [exact DB|]. split; [exact Hs|]. intros y. unfold Ebd. rewrite energy_split by (right; reflexivity). fold f. cbn [kz shift]. ring.
    - subst pb. rewrite DB. apply rdiag_ext. intros y. rewrite energy_split by (left; reflexivity). unfold Ebd. fold f. ring. }
  destruct (slices_den si rho n build (option_map snd auxb) Ebd tl zt O SLH (loop_pairs n) (fun p I => I)) as (sl & ESL & DSL).
  rewrite ESL in H. cbn [obind] in H. cbv zeta in H. apply some_eq in H. subst b.
  set (S0 := fun y => psum n (fun p => if small T zt p then 0 else - (T p * Ebd (flip p y)))).
  assert (D0 : den rho (BChain sl) = diag S0).
  { change (den rho (BChain sl)) with (dchain rho sl). rewrite DSL. apply diag_ext. intros y. unfold S0, psum.
    rewrite (rsum_perm _ _ (Permutation_map (fun p => if kept n tl zt p then - (at_pair n tl p * Ebd (flip p y)) else 0) (loop_perm n))). apply rsum_ext. intros p _. unfold kept, small. fold (T p). destruct (Rlt_dec zt (Rabs (T p))); reflexivity. }
  set (dtx := fun y => match pt with PZ => 0 | _ => det n g y end).
  assert (D1 : den rho (match auxt with Some (_, h) => BChain [dagger (BEvo h (num t_f)); BChain sl] | None => BChain sl end) = diag (fun y => t_f * dtx y + S0 y)).
  { destruct auxt as [[hp hs]|].
    - destruct AUXT as (-> & _ & Hs). rewrite den_cons2, D0, (evo_dagger rho hs t_f _ Hs), diag_seq. reflexivity.
    - subst pt. rewrite D0. apply diag_ext. intros y. unfold dtx. ring. }
  assert (D2 : forall c F, den rho c = diag F -> den rho (match auxb with Some (h, _) => BChain [BEvo h (num (lsum tl)); c] | None => c end) = diag (fun y => - (psum n T * shift pb n f) + F y)).
  { intros c F HF. destruct auxb as [[hp hs]|].
    - destruct AUXB as (-> & Hp & _). rewrite den_cons2, HF, (evo_rdiag rho hp _ _ Hp), diag_seq, ang_num, ES. reflexivity.
    - subst pb. rewrite HF. apply diag_ext. intros y. unfold shift. ring. }
  assert (D3 : forall c F, den rho c = diag F -> den rho (match auxt with Some (h, _) => BChain [dagger (BEvo h (num t_f)); c] | None => c end) = diag (fun y => t_f * shift pt n g + F y)).
  { intros c F HF. destruct auxt as [[hp hs]|].
    - destruct AUXT as (-> & Hp & _). rewrite den_cons2, HF, (evo_dagger rho hp _ _ Hp), diag_seq. reflexivity.
    - subst pt. rewrite HF. apply diag_ext. intros y. unfold shift. ring. }
  assert (MAIN : forall y, S0 y + t_f * dtx y + t_f * energy rho pt n target y = err_ n pb pt f g T zt t_f y + phase_ n pb pt f g T t_f).
  { intros y. rewrite (energy_split rho pt n target y Zt). fold g. fold (dtx y).
    assert (E1 : S0 y = psum n (fun p => if small T zt p then T p * Ebd (flip p y) else 0) - psum n (fun p => T p * Ebd (flip p y))).
    { unfold Rminus. rewrite <- (Rmult_1_l (psum n (fun p => T p * Ebd (flip p y)))), Ropp_mult_distr_l, <- psum_scal, <- psum_plus. apply psum_ext. intros p _. destruct (small T zt p); ring. }
    assert (E2 : psum n (fun p => T p * Ebd (flip p y)) = kz pb * psum n (fun p => T p * zz n f (flip p y)) - psum n T * shift pb n f).
    { unfold Ebd. rewrite (psum_ext n _ (fun p => kz pb * (T p * zz n f (flip p y)) + (- shift pb n f) * T p)) by (intros; ring). rewrite psum_plus, !psum_scal. ring. }
    assert (E3 : psum n (fun p => T p * zz n f (flip p y)) = tstar pb pt t_f * (zz n g y - psum n (fun q => if Req_EM_T (f q) 0 then g q * pe PZ y q else 0))).
    { rewrite zz_flips. unfold zz. unfold Rminus. rewrite <- (Rmult_1_l (psum n (fun q => if Req_EM_T (f q) 0 then g q * pe PZ y q else 0))), Ropp_mult_distr_l, <- psum_scal, <- psum_plus, <- psum_scal. apply psum_ext. intros q I. rewrite SYS by exact I. unfold nz. destruct (Req_EM_T (f q) 0) as [->|NZ]; field; lra. }
    rewrite E1, E2, E3. unfold err_, phase_. fold (Ebd).
    replace (kz pb * (tstar pb pt t_f * (zz n g y - psum n (fun q => if Req_EM_T (f q) 0 then g q * pe PZ y q else 0)))) with (t_f * kz pt * (zz n g y - psum n (fun q => if Req_EM_T (f q) 0 then g q * pe PZ y q else 0))) by (rewrite <- (tstar_k pb pt t_f Zb Zt); ring).
    unfold Ebd. ring. }
  intros psi y. rewrite (evo_rdiag rho target (num t_f) _ DT), ang_num. unfold diag. rewrite Cmult_assoc, cis_add.
  destruct ignore.
  - rewrite D1. unfold diag. f_equal. f_equal. pose proof (MAIN y). lra.
  - rewrite (D3 _ _ (D2 _ _ D1)). unfold diag. f_equal. f_equal. pose proof (MAIN y) as MM. unfold phase_ in MM. lra.
Qed.

(** * The properties *)
Lemma flips_sgn p q : flips p q = sgn p q.
Proof. unfold flips, sgn, zsgn, touches. destruct (Nat.eqb (fst q) (fst p) || Nat.eqb (fst q) (snd p)), (Nat.eqb (snd q) (fst p) || Nat.eqb (snd q) (snd p)); simpl; ring. Qed.
Lemma over_pairs_psum n h : over_pairs n h = psum n h.
Proof. reflexivity. Qed.
Lemma psum_abs n h : Rabs (psum n h) <= psum n (fun p => Rabs (h p)).
Proof. unfold psum. induction (ordered_pairs n) as [|p l IH]; simpl; [rewrite Rabs_R0; lra|]. eapply Rle_trans; [apply Rabs_triang|]. lra. Qed.
Lemma psum_le n h h' : (forall p, In p (ordered_pairs n) -> h p <= h' p) -> psum n h <= psum n h'.
Proof. unfold psum. induction (ordered_pairs n) as [|p l IH]; simpl; intros H; [lra|]. assert (h p <= h' p) by auto. assert (rsum (map h l) <= rsum (map h' l)) by auto. lra. Qed.
Lemma psum_const n c : psum n (fun _ => c) = INR (flat_size n) * c.
Proof.
  unfold psum. rewrite <- pairs_length. induction (ordered_pairs n) as [|p l IH]; [simpl; ring|]. cbn [map List.length rsum]. change (c + rsum (map (fun _ => c) l) = INR (S (List.length l)) * c). rewrite IH, S_INR. ring.
Qed.
Lemma pe_abs x q : Rabs (pe PZ x q) <= 1.
Proof.
  unfold pe. rewrite Rabs_mult. assert (Z : forall a, Rabs (zs x a) = 1) by (intros a; unfold zs; destruct (x a); [replace (-1) with (- (1)) by ring; rewrite Rabs_Ropp|]; apply Rabs_R1). rewrite !Z. lra.
Qed.
Lemma zz_abs n f x : Rabs (zz n f x) <= psum n (fun q => Rabs (f q)).
Proof.
  unfold zz. eapply Rle_trans; [apply psum_abs|]. apply psum_le. intros q _. rewrite Rabs_mult. pose proof (pe_abs x q). pose proof (Rabs_pos (f q)). nra.
Qed.
Lemma build_abs n pb f x : zorn pb -> Rabs (kz pb * zz n f x - shift pb n f) <= psum n (fun q => Rabs (f q)).
Proof.
  intros [-> | ->]; unfold kz, shift.
  - rewrite Rminus_0_r, Rmult_1_l. apply zz_abs.
  - pose proof (zz_abs n f x). pose proof (psum_abs n f). unfold Rminus. eapply Rle_trans; [apply Rabs_triang|]. rewrite Rabs_Ropp. unfold Rdiv. rewrite !Rabs_mult, (Rabs_pos_eq (/ 4)) by lra. pose proof (Rabs_pos (zz n f x)). lra.
Qed.
Lemma err_bound n pb pt f g T zt t_f x : 0 < zt -> zorn pb -> zorn pt -> (forall q, In q (ordered_pairs n) -> f q = 0 -> Rabs (g q) <= zt) ->
  Rabs (err_ n pb pt f g T zt t_f x) <= zt * INR (flat_size n) * (psum n (fun q => Rabs (f q)) + Rabs t_f).
Proof.
  intros Hz Zb Zt C. unfold err_. set (F := psum n (fun q => Rabs (f q))).
  assert (F0 : 0 <= F) by (unfold F; eapply Rle_trans; [apply Rabs_pos|apply (psum_abs n f)]).
  eapply Rle_trans; [apply Rabs_triang|].
  assert (A : Rabs (psum n (fun p => if small T zt p then T p * (kz pb * zz n f (flip p x) - shift pb n f) else 0)) <= INR (flat_size n) * (zt * F)).
  { eapply Rle_trans; [apply psum_abs|]. rewrite <- psum_const. apply psum_le. intros p _. unfold small. destruct (Rlt_dec zt (Rabs (T p))) as [L|L].
    - rewrite Rabs_R0. nra.
    - rewrite Rabs_mult. apply Rmult_le_compat; [apply Rabs_pos|apply Rabs_pos|lra|apply build_abs; exact Zb]. }
  assert (B : Rabs (psum n (fun q => if Req_EM_T (f q) 0 then g q * pe PZ x q else 0)) <= INR (flat_size n) * zt).
  { eapply Rle_trans; [apply psum_abs|]. rewrite <- psum_const. apply psum_le. intros q I. destruct (Req_EM_T (f q) 0) as [E|E]; [|rewrite Rabs_R0; lra].
    rewrite Rabs_mult. pose proof (C q I E). pose proof (pe_abs x q). pose proof (Rabs_pos (g q)). pose proof (Rabs_pos (pe PZ x q)). nra. }
  rewrite !Rabs_mult. assert (K : Rabs (kz pt) <= 1) by (destruct Zt as [-> | ->]; unfold kz; rewrite Rabs_pos_eq; lra). 
  pose proof (Rabs_pos (kz pt)). pose proof (Rabs_pos t_f). set (G := Rabs (psum n (fun q => if Req_EM_T (f q) 0 then g q * pe PZ x q else 0))) in *. assert (0 <= G) by apply Rabs_pos.
  assert (Rabs (kz pt) * Rabs t_f * G <= Rabs t_f * (INR (flat_size n) * zt)) by (apply Rle_trans with (1 * Rabs t_f * G); [apply Rmult_le_compat_r; [assumption|apply Rmult_le_compat_r; assumption]|rewrite Rmult_1_l; apply Rmult_le_compat_l; assumption]).
  unfold G in *. clearbody F. nra.
Qed.

(** For every target and build Hamiltonian made of Z Z or of N N interactions, whatever the sizes and the strengths: the circuit
    returned is the target evolution up to a phase error that is at most proportional to the cut-off [zero_tol], and up to a
    constant phase that is 0 unless global phases are ignored. *)
Theorem C28_error : forall set_iter rho solve n pb pt build target t_f zero_tol ignore b,
  set_order set_iter -> ascending_below n set_iter -> solves solve n -> 0 < zero_tol ->
  In pb [PZ; PN true] -> In pt [PZ; PN true] -> two_body rho pb n build -> two_body rho pt n target ->
  daqc_transform set_iter rho solve n target t_f (Some build) zero_tol true ignore = Some b ->
  exists (phase : R) (err : asg -> R),
    (ignore = false -> phase = 0) /\
    (forall x, Rabs (err x) <= zero_tol * INR (List.length (pairs_of n)) * (over_pairs n (fun q => Rabs (coupling rho build (fst q) (snd q))) + Rabs t_f)) /\
    forall psi x, (den rho b psi x = cis (phase + err x) * den rho (BEvo target (ECst (RtoC t_f))) psi x)%C.
Proof.
  intros si rho solve n pb pt build target t_f zt ignore b O A S Hz Ib It TB TT H.
  assert (Zb : zorn pb) by (destruct Ib as [<- | [<- | []]]; [left|right]; reflexivity). assert (Zt : zorn pt) by (destruct It as [<- | [<- | []]]; [left|right]; reflexivity).
  destruct (daqc_core si rho solve n pb pt build target t_f zt ignore b O A S Hz Zb Zt TB TT H) as (T & _ & C & _ & D).
  exists (if ignore then phase_ n pb pt (cpl rho build) (cpl rho target) T t_f else 0), (err_ n pb pt (cpl rho build) (cpl rho target) T zt t_f).
  split; [intros ->; reflexivity|]. split; [|exact D]. intros x. change (pairs_of n) with (ordered_pairs n). rewrite pairs_length. apply (err_bound n pb pt (cpl rho build) (cpl rho target)); assumption.
Qed.

Lemma times_eq rho n pb pt build target t_f zt T : zorn pb -> zorn pt -> 0 < zt -> (forall q, In q (ordered_pairs n) -> cpl rho target q <> 0 -> cpl rho build q <> 0) ->
  (forall q, In q (ordered_pairs n) -> psum n (fun p => sgn p q * T p) = cpl rho target q / nz zt (cpl rho build q) * tstar pb pt t_f) ->
  slice_times rho n pb pt build target t_f T.
Proof.
  intros Zb Zt Hz C H q I. rewrite over_pairs_psum. rewrite (psum_ext n _ (fun p => sgn p q * T p)) by (intros; rewrite flips_sgn; reflexivity). rewrite H by exact I. fold (cpl rho build q) (cpl rho target q).
  assert (E : tstar pb pt t_f = t_f * zz_part pt / zz_part pb) by (destruct Zb as [-> | ->], Zt as [-> | ->]; unfold tstar, zz_part; simpl; field). rewrite E. f_equal.
  unfold nz. specialize (C q I). destruct (Req_EM_T (cpl rho build q) 0) as [E0|E0]; [|reflexivity]. destruct (Req_EM_T (cpl rho target q) 0) as [->|NZ]; [unfold Rdiv; ring|]. contradiction (C NZ E0).
Qed.
(** When every target interaction is also a build interaction and no slice is so short that it is cut off, the circuit is exactly
    the target evolution; when global phases are ignored, up to a constant phase. *)
Theorem C28_exact : forall set_iter rho solve n pb pt build target t_f zero_tol ignore b,
  set_order set_iter -> ascending_below n set_iter -> solves solve n -> 0 < zero_tol ->
  In pb [PZ; PN true] -> In pt [PZ; PN true] -> two_body rho pb n build -> two_body rho pt n target ->
  (forall q, In q (pairs_of n) -> coupling rho target (fst q) (snd q) <> 0 -> coupling rho build (fst q) (snd q) <> 0) ->
  (forall t, slice_times rho n pb pt build target t_f t -> forall q, In q (pairs_of n) -> t q = 0 \/ zero_tol < Rabs (t q)) ->
  daqc_transform set_iter rho solve n target t_f (Some build) zero_tol true ignore = Some b ->
  exists phase : R, (ignore = false -> phase = 0) /\ den rho b = scaleop (cis phase) (den rho (BEvo target (ECst (RtoC t_f)))).
Proof.
  intros si rho solve n pb pt build target t_f zt ignore b O A S Hz Ib It TB TT Cov Long H.
  assert (Zb : zorn pb) by (destruct Ib as [<- | [<- | []]]; [left|right]; reflexivity). assert (Zt : zorn pt) by (destruct It as [<- | [<- | []]]; [left|right]; reflexivity).
  destruct (daqc_core si rho solve n pb pt build target t_f zt ignore b O A S Hz Zb Zt TB TT H) as (T & SYS & _ & _ & D).
  pose proof (Long T (times_eq rho n pb pt build target t_f zt T Zb Zt Hz Cov SYS)) as L.
  exists (if ignore then phase_ n pb pt (cpl rho build) (cpl rho target) T t_f else 0). split; [intros ->; reflexivity|].
  apply functional_extensionality. intros psi. apply functional_extensionality. intros x. rewrite D. unfold scaleop. f_equal. f_equal.
  assert (E : err_ n pb pt (cpl rho build) (cpl rho target) T zt t_f x = 0); [|rewrite E; ring].
  unfold err_. rewrite (psum_ext n _ (fun _ => 0)), psum_const, (psum_ext n _ (fun _ => 0)), psum_const; [ring| |].
  - intros q I. destruct (Req_EM_T (cpl rho build q) 0) as [E0|]; [|reflexivity]. destruct (Req_EM_T (cpl rho target q) 0) as [->|NZ]; [ring|]. contradiction (Cov q I NZ E0).
  - intros p I. unfold small. destruct (Rlt_dec zt (Rabs (T p))) as [|G]; [reflexivity|]. destruct (L p I) as [->|]; [ring|contradiction].
Qed.

(** The linear system of the transform has exactly one solution for every number of qubits except 4, and then the times are the
    given expressions; for 4 qubits it is singular. *)
Theorem C28_solvable : forall n, n <> 4%nat -> forall r : nat * nat -> R,
  (exists t, forall q, In q (pairs_of n) -> over_pairs n (fun p => flips p q * t p) = r q) /\
  (forall t t', (forall q, In q (pairs_of n) -> over_pairs n (fun p => flips p q * t p) = r q) ->
                (forall q, In q (pairs_of n) -> over_pairs n (fun p => flips p q * t' p) = r q) -> forall p, In p (pairs_of n) -> t p = t' p).
Proof.
  intros n N r. assert (E : forall t q, over_pairs n (fun p => flips p q * t p) = psum n (fun p => sgn p q * t p)) by (intros; apply psum_ext; intros; rewrite flips_sgn; reflexivity).
  split.
  - exists (times_ n r). intros q I. rewrite E. apply system_solution; assumption.
  - intros t t' H H' p I. rewrite (system_unique n r t N), (system_unique n r t' N); [reflexivity| |exact I| |exact I]; intros q J; rewrite <- E; auto.
Qed.
Theorem C28_four_singular : exists t, (exists p, In p (pairs_of 4) /\ t p <> 0) /\ forall q, In q (pairs_of 4) -> over_pairs 4 (fun p => flips p q * t p) = 0.
Proof.
  exists (fun p => match p with (0%nat, 2%nat) | (0%nat, 3%nat) => 1 | (1%nat, 2%nat) | (1%nat, 3%nat) => -1 | _ => 0 end). split.
  - exists (0%nat, 2%nat). split; [cbn; tauto|]. lra.
  - intros q I. cbn in I. repeat (destruct I as [<-|I]; [cbv [over_pairs pairs_of flips flat_map map seq app rsum fold_right Nat.sub fst snd Nat.eqb orb xorb]; ring|]). destruct I.
Qed.
Lemma matrix_is n : exists M, build_matrix_M n = Some M /\ forall r x, solution (flat_size n) M r x <-> (List.length x = flat_size n /\ forall q, In q (pairs_of n) -> over_pairs n (fun p => flips p q * at_pair n x p) = at_pair n r q).
Proof.
  destruct (build_matrix_ok n) as (M & E & HM). exists M. split; [exact E|]. intros r x. unfold solution.
  assert (K : forall q, In q (ordered_pairs n) -> matvec (flat_size n) M x (pix n q) = over_pairs n (fun p => flips p q * at_pair n x p)).
  { intros q I. unfold matvec. rewrite <- pairs_index, map_map. apply rsum_ext. intros p J. rewrite HM by assumption. rewrite flips_sgn. destruct (pair_bounds n p J) as (_ & _ & B1). destruct (pair_bounds n q I) as (_ & _ & B2). rewrite (sgn_sym p q B1 B2). reflexivity. }
  split; intros [Lx H]; (split; [exact Lx|]).
  - intros q I. rewrite <- K by exact I. apply H. apply in_pairs_pix, I.
  - intros i Hi. assert (J : In i (map (pix n) (ordered_pairs n))) by (rewrite pairs_index; apply in_seq; lia). apply in_map_iff in J as (q & <- & I). rewrite K by exact I. apply (H q I).
Qed.
Lemma solver_answers solve n r : n <> 4%nat -> solves_all solve n -> List.length r = flat_size n -> forall M, build_matrix_M n = Some M -> solve (flat_size n) M r <> None.
Proof.
  intros N SA L M EM. destruct (matrix_is n) as (M' & EM' & K). assert (M' = M) by congruence. subst M'.
  apply (SA M r (map (times_ n (at_pair n r)) (ordered_pairs n)) EM L).
  - apply K. split; [rewrite map_length; apply pairs_length|]. intros q I. rewrite (psum_ext n _ (fun p => sgn p q * times_ n (at_pair n r) p)) || rewrite over_pairs_psum, (psum_ext n _ (fun p => sgn p q * times_ n (at_pair n r) p)); [apply system_solution; assumption|]. intros p J. rewrite flips_sgn, at_pair_map by exact J. reflexivity.
  - intros y Hy. apply K in Hy as [Ly Hy]. rewrite (flat_list n y Ly) at 1. apply map_ext_in. intros p I. apply (system_unique n (at_pair n r)); [exact N| |exact I]. intros q J. rewrite <- Hy by exact J. apply psum_ext. intros. rewrite flips_sgn. reflexivity.
Qed.

(** * When the transform succeeds *)
Lemma slices_total si si' n gb dt ts zt : set_order si -> set_order si' -> forall ps, (forall p, In p ps -> In p (loop_pairs n)) ->
  slices si n gb dt ts zt ps <> None /\ slices si n gb dt ts zt ps = slices si' n gb dt ts zt ps.
Proof.
  intros O O'. induction ps as [|[a m] ps IH]; intros H; [split; [discriminate|reflexivity]|].
  destruct (IH (fun p I => H p (or_intror I))) as [T E]. pose proof (H _ (or_introl eq_refl)) as I0. pose proof (loop_in _ _ _ I0) as B. cbn [slices].
  rewrite (loop_ix n (a, m) I0 : tpos (flat_size n) (ix_map n a m - 1) = _), <- E. destruct (slices si n gb dt ts zt ps) as [sl|]; [|contradiction].
  assert (K : forall s, set_order s -> mk_kron s [BPrim PX (a - 1); BPrim PX (m - 1)] = Some (BKron [BPrim PX (a - 1); BPrim PX (m - 1)])).
  { intros s Os. apply kron_ok; [exact Os|discriminate|]. constructor; [constructor; [|constructor]|constructor; [constructor|constructor]]. intros q [<-|[]] [E'|[]]. lia. }
  rewrite (K si O), (K si' O'). destruct (Rlt_dec zt (Rabs (nth (pix n (dec1 (a, m))) ts 0))); (split; [discriminate|reflexivity]).
Qed.
Lemma two_body_paulis rho p n g : zorn p -> two_body rho p n g -> block_is_qubit_hamiltonian g = true.
Proof.
  intros Z T. assert (A : Forall (fun b => is_pauli b = true) (primitive_blocks g)).
  { refine (two_body_ind' rho p n (fun g => Forall (fun b => is_pauli b = true) (primitive_blocks g)) _ _ _ _ g T).
    - intros j k _ _ _. cbn [primitive_blocks flat_map app]. destruct Z as [-> | ->]; repeat constructor.
    - intros j k e _ _ _ _ _. cbn [primitive_blocks flat_map app]. destruct Z as [-> | ->]; repeat constructor.
    - intros bs _ F. cbn [primitive_blocks]. induction F as [|b bs Hb F IH]; [constructor|]. cbn [flat_map]. apply Forall_app. split; assumption.
    - intros bs e _ F _. cbn [primitive_blocks]. induction F as [|b bs Hb F IH]; [constructor|]. cbn [flat_map]. apply Forall_app. split; assumption. }
  unfold block_is_qubit_hamiltonian, get_pauli_blocks. induction A as [|b l Hb A IH]; [reflexivity|]. cbn [collect_paulis]. rewrite Hb. destruct (collect_paulis l); [reflexivity|discriminate].
Qed.
Definition grows (g : block) : Prop := has_term g = true -> forall acc, (List.length acc < List.length (unroll g acc))%nat.
Lemma unroll_grows rho p n g : two_body rho p n g -> (forall acc, (List.length acc <= List.length (unroll g acc))%nat) /\ grows g.
Proof.
  intros T.
  assert (L : forall bs, Forall (fun g => (forall acc, (List.length acc <= List.length (unroll g acc))%nat) /\ grows g) bs ->
     (forall acc, (List.length acc <= List.length (fold_left (fun a x => unroll x a) bs acc))%nat) /\
     (existsb has_term bs = true -> forall acc, (List.length acc < List.length (fold_left (fun a x => unroll x a) bs acc))%nat)).
  { induction 1 as [|b bs [H1 H2] F [I1 I2]]; [split; [intros; apply le_n|discriminate]|]. split.
    - intros acc. cbn [fold_left]. eapply Nat.le_trans; [apply H1|apply I1].
    - cbn [existsb fold_left]. intros H acc. apply orb_true_iff in H as [H|H].
      + eapply Nat.lt_le_trans; [apply (H2 H)|apply I1].
      + eapply Nat.le_lt_trans; [apply H1|apply (I2 H)]. }
  refine (two_body_ind' rho p n (fun g => (forall acc, (List.length acc <= List.length (unroll g acc))%nat) /\ grows g) _ _ _ _ g T).
  - intros j k _ _ _. unfold grows. split; [intros acc|intros _ acc]; cbn [unroll]; rewrite app_length; cbn; lia.
  - intros j k e _ _ _ _ _. unfold grows. split; [intros acc|intros _ acc]; cbn [unroll]; rewrite app_length; cbn; lia.
  - intros bs _ F. destruct (L bs F) as [A B]. split; [exact A|exact B].
  - intros bs e _ F _. destruct (L bs F) as [A B]. split.
    + intros acc. cbn [unroll]. rewrite app_length, map_length, firstn_length, skipn_length. specialize (A acc). lia.
    + intros H acc. cbn [unroll]. rewrite app_length, map_length, firstn_length, skipn_length. specialize (A acc). specialize (B H acc). lia.
Qed.
Lemma parse_total si rho p n g zt : set_order si -> ascending_below n si -> zorn p -> two_body rho p n g -> has_term g = true ->
  exists gl mat, parse_generator si rho n g zt = Some (gl, mat, gty p).
Proof.
  intros O A Z T H. destruct (unrolls_all rho p n g T []) as (l & E & G & K). pose proof (proj2 (unroll_grows rho p n g T) H []) as W. rewrite E in W. cbn [app List.length] in W.
  unfold parse_generator, unroll_block_with_scaling. rewrite E. cbn [app].
  destruct (parse_terms si rho p n zt l O A Z G (PS_ (repeat 0 (flat_size n)) (fun _ _ => 0) []) (repeat_length _ _)) as (s & F & L & Q & M & Ty). rewrite F, Ty. cbn [p_types app].
  assert (R : forall m, (0 < m)%nat -> type_of (repeat (gty p) m) = Some (gty p)).
  { intros m Hm. destruct m as [|m]; [lia|]. unfold type_of. cbn [repeat]. change (gty p :: repeat (gty p) m) with (repeat (gty p) (S m)).
    assert (R : forall m t, forallb is_zz (repeat t m) = match m with O => true | _ => is_zz t end /\ forallb (fun t => negb (is_zz t)) (repeat t m) = match m with O => true | _ => negb (is_zz t) end).
    { clear. intros m t. induction m as [|m [I1 I2]]; [auto|]. cbn [repeat forallb]. rewrite I1, I2. destruct m, t; auto. }
    rewrite (proj1 (R _ _)), (proj2 (R _ _)). destruct (gty p); reflexivity. }
  rewrite R by lia. eauto.
Qed.
(** For every number of qubits except 4 the transform succeeds on every pair of Hamiltonians with at least one term each, in which
    all target interactions above the cut-off are build interactions above the cut-off. *)
Theorem C28_total : forall set_iter rho solve n pb pt build target t_f zero_tol ignore,
  set_order set_iter -> ascending_below n set_iter -> solves_all solve n -> 0 < zero_tol -> n <> 4%nat ->
  In pb [PZ; PN true] -> In pt [PZ; PN true] -> two_body rho pb n build -> two_body rho pt n target -> has_term build = true -> has_term target = true ->
  (forall q, In q (pairs_of n) -> zero_tol < Rabs (coupling rho target (fst q) (snd q)) -> zero_tol < Rabs (coupling rho build (fst q) (snd q))) ->
  exists b, daqc_transform set_iter rho solve n target t_f (Some build) zero_tol true ignore = Some b.
Proof.
  intros si rho solve n pb pt build target t_f zt ignore O A SA Hz N4 Ib It TB TT HB HT Cov.
  assert (Zb : zorn pb) by (destruct Ib as [<- | [<- | []]]; [left|right]; reflexivity). assert (Zt : zorn pt) by (destruct It as [<- | [<- | []]]; [left|right]; reflexivity).
  assert (Cov' : forall q, In q (ordered_pairs n) -> zt < Rabs (cpl rho target q) -> zt < Rabs (cpl rho build q)) by exact Cov. clear Cov.
  unfold daqc_transform. cbn [negb]. destruct (Nat.eqb_spec n 4) as [|_]; [contradiction|]. cbn [obind].
  rewrite (two_body_paulis rho pt n target Zt TT), (two_body_paulis rho pb n build Zb TB). cbn [negb orb].
  destruct (parse_total si rho pt n target 0 O A Zt TT HT) as (gt & mt & PT). destruct (parse_total si rho pb n build zt O A Zb TB HB) as (gb & mb & PB).
  rewrite PT, PB. cbn [obind]. destruct (parse_ok si rho pt n target 0 gt mt (gty pt) O A Zt TT PT) as (_ & Lt & Qt & _). destruct (parse_ok si rho pb n build zt gb mb (gty pb) O A Zb TB PB) as (_ & Lb & Qb & _).
  assert (N0 : n <> 0%nat).
  { intros ->. assert (X : forall p g, two_body rho p 0 g -> has_term g = false).
    { intros p g T0. refine (two_body_ind' rho p 0 (fun g => has_term g = false) _ _ _ _ g T0); intros; cbn [has_term]; try lia.
      - induction H0 as [|b bs Hb F IH]; [reflexivity|]. cbn [existsb]. inversion H; subst. rewrite Hb, IH by assumption. reflexivity.
      - induction H0 as [|b bs Hb F IH]; [reflexivity|]. cbn [existsb]. inversion H; subst. rewrite Hb, IH by assumption. reflexivity. }
    rewrite (X pb build TB) in HB. discriminate. }
  assert (ND : forall m, exists hh, nn_phase_and_detunings si n m = Some hh).
  { intros m. unfold nn_phase_and_detunings. rewrite kron_ok; [eexists; reflexivity|exact O| |apply prims_disjoint, seq_NoDup]. destruct n; [contradiction|discriminate]. }
  assert (AB : forall ty m, exists a, match ty with GNN => option_map Some (nn_phase_and_detunings si n m) | GZZ => Some None end = Some a).
  { intros ty m. destruct ty; [eexists; reflexivity|]. destruct (ND m) as [hh ->]. eexists; reflexivity. }
  destruct (AB (gty pb) mb) as [auxb ->]. cbn [obind]. destruct (AB (gty pt) mt) as [auxt ->]. cbn [obind].
  assert (CC : check_compatibility gt gb zt = true).
  { unfold check_compatibility. rewrite (flat_list n gt Lt), (flat_list n gb Lb), combine_map. apply forallb_forall. intros gg J. apply in_map_iff in J as (q & <- & I). cbn [fst snd].
    rewrite Qt, Qb by exact I. fold (cpl rho target q) (cpl rho build q). specialize (Cov' q I). apply negb_true_iff, andb_false_iff.
    destruct (Rlt_dec zt (Rabs (nz 0 (cpl rho target q)))) as [L|L]; [right|left; reflexivity].
    assert (L' : zt < Rabs (cpl rho target q)) by (unfold nz in L; destruct (Req_EM_T (cpl rho target q) 0); [rewrite Rabs_R0 in L; lra|exact L]). apply Cov' in L'.
    unfold nz. destruct (Req_EM_T (cpl rho build q) 0) as [E|E]; [rewrite E, Rabs_R0 in L'; lra|]. destruct (Rle_dec (Rabs (cpl rho build q)) zt); [lra|reflexivity]. }
  rewrite CC. destruct (build_matrix_ok n) as (M & EM & _). rewrite EM. cbn [obind].
  set (r := map (fun gg : R * R => fst gg / snd gg) (combine gt gb)).
  assert (Lr : List.length r = flat_size n) by (unfold r; rewrite map_length, combine_length, Lt, Lb; apply Nat.min_id).
  pose proof (solver_answers solve n r N4 SA Lr M EM) as SO. destruct (solve (flat_size n) M r) as [x|]; [|contradiction]. cbn [obind].
  match goal with |- exists b, obind (slices si n build ?d ?t zt (loop_pairs n)) _ = _ => pose proof (proj1 (slices_total si si n build d t zt O O (loop_pairs n) (fun p I => I))) as SL; destruct (slices si n build d t zt (loop_pairs n)) as [sl|]; [|contradiction] end.
  eexists. reflexivity.
Qed.
(** For 4 qubits and for strategies other than sDAQC it always raises. *)
Theorem C28_rejects : forall set_iter rho solve n target t_f build zero_tol sdaqc ignore, n = 4%nat \/ sdaqc = false ->
  daqc_transform set_iter rho solve n target t_f build zero_tol sdaqc ignore = None.
Proof. intros si rho solve n target t_f build zt sd ig [-> | ->]; unfold daqc_transform; [destruct sd|]; reflexivity. Qed.
(** Two-body target interactions the build Hamiltonian lacks are refused. *)
Theorem C28_incompatible : forall set_iter rho solve n pb pt build target t_f zero_tol ignore,
  set_order set_iter -> ascending_below n set_iter -> 0 < zero_tol ->
  In pb [PZ; PN true] -> In pt [PZ; PN true] -> two_body rho pb n build -> two_body rho pt n target ->
  (exists q, In q (pairs_of n) /\ zero_tol < Rabs (coupling rho target (fst q) (snd q)) /\ Rabs (coupling rho build (fst q) (snd q)) <= zero_tol) ->
  daqc_transform set_iter rho solve n target t_f (Some build) zero_tol true ignore = None.
Proof.
  intros si rho solve n pb pt build target t_f zt ignore O A Hz Ib It TB TT (q & I & Hg & Hf).
  assert (Zb : zorn pb) by (destruct Ib as [<- | [<- | []]]; [left|right]; reflexivity). assert (Zt : zorn pt) by (destruct It as [<- | [<- | []]]; [left|right]; reflexivity).
  change (In q (ordered_pairs n)) in I. fold (cpl rho target q) in Hg. fold (cpl rho build q) in Hf.
  unfold daqc_transform. cbn [negb]. destruct (Nat.eqb_spec n 4) as [|N4]; [reflexivity|]. cbn [obind].
  destruct (negb (block_is_qubit_hamiltonian target) || negb (block_is_qubit_hamiltonian build)); [reflexivity|].
  destruct (parse_generator si rho n target 0) as [[[gt mt] tyt]|] eqn:PT; [|reflexivity]. cbn [obind].
  destruct (parse_generator si rho n build zt) as [[[gb mb] tyb]|] eqn:PB; [|reflexivity]. cbn [obind].
  destruct (parse_ok si rho pt n target 0 gt mt tyt O A Zt TT PT) as (_ & Lt & Qt & _).
  destruct (parse_ok si rho pb n build zt gb mb tyb O A Zb TB PB) as (_ & Lb & Qb & _).
  assert (CC : check_compatibility gt gb zt = false).
  { apply Bool.not_true_is_false. intros CC. unfold check_compatibility in CC. rewrite (flat_list n gt Lt), (flat_list n gb Lb), combine_map in CC. rewrite forallb_forall in CC.
    assert (J : In (at_pair n gt q, at_pair n gb q) (map (fun x => (at_pair n gt x, at_pair n gb x)) (ordered_pairs n))) by (apply (in_map (fun x => (at_pair n gt x, at_pair n gb x))); exact I).
    specialize (CC _ J). cbn [fst snd] in CC. rewrite Qt, Qb in CC by exact I. fold (cpl rho target q) (cpl rho build q) in CC.
    assert (E1 : nz 0 (cpl rho target q) = cpl rho target q) by (unfold nz; destruct (Req_EM_T (cpl rho target q) 0); congruence). rewrite E1 in CC.
    assert (E2 : Rabs (nz zt (cpl rho build q)) <= zt) by (unfold nz; destruct (Req_EM_T (cpl rho build q) 0); [rewrite Rabs_pos_eq|]; lra).
    destruct (Rlt_dec zt (Rabs (cpl rho target q))); [|lra]. destruct (Rle_dec (Rabs (nz zt (cpl rho build q))) zt); [discriminate|lra]. }
  rewrite CC. destruct (match tyb with GNN => option_map Some (nn_phase_and_detunings si n mb) | GZZ => Some None end) as [auxb|]; [|reflexivity]. cbn [obind].
  destruct (match tyt with GNN => option_map Some (nn_phase_and_detunings si n mt) | GZZ => Some None end) as [auxt|]; reflexivity.
Qed.
(** Without a build Hamiltonian, the one with N N interactions of strength 1 between all the qubits is used. *)
Lemma oseq_cons' {A} (o : option A) l : osequence (o :: l) = match o, osequence l with Some a, Some r => Some (a :: r) | _, _ => None end.
Proof. destruct o; reflexivity. Qed.
Definition full_nn (n : nat) : block := BAdd (map (fun q => BScale (BKron [BPrim (PN true) (fst q); BPrim (PN true) (snd q)]) (ECst (RtoC 1))) (pairs_of n)).
Theorem C28_default : forall set_iter rho solve n target t_f zero_tol sdaqc ignore, set_order set_iter ->
  daqc_transform set_iter rho solve n target t_f None zero_tol sdaqc ignore = daqc_transform set_iter rho solve n target t_f (Some (full_nn n)) zero_tol sdaqc ignore /\
  two_body rho (PN true) n (full_nn n) /\ forall q, In q (pairs_of n) -> coupling rho (full_nn n) (fst q) (snd q) = 1.
Proof.
  intros si rho solve n target t_f zt sd ig O. split; [|split].
  - unfold daqc_transform. destruct sd; [|reflexivity]. cbn [negb]. destruct (Nat.eqb n 4); [reflexivity|]. f_equal.
    unfold hamiltonian_factory. cbn [int_fn option_map obind preprocess_strengths]. rewrite alltoall_edges. cbn [app].
    assert (W : forall l, (forall q, In q l -> (fst q < snd q)%nat) -> osequence (map (fun we : expr * (nat * nat) => option_map (fun b => op_scale b (fst we)) (interaction_nn si (fst (snd we)) (snd (snd we)))) (combine (map (fun _ => ECst (RtoC 1)) (seq 0 (List.length l))) l)) =
        Some (map (fun q => BScale (BKron [BPrim (PN true) (fst q); BPrim (PN true) (snd q)]) (ECst (RtoC 1))) l)).
    { induction l as [|q l IH]; intros Hl; [reflexivity|].
      assert (S : forall m k, map (fun _ : nat => ECst (RtoC 1)) (seq k m) = repeat (ECst (RtoC 1)) m) by (induction m; intros k; [reflexivity|]; cbn [seq map repeat]; rewrite IHm; reflexivity).
      rewrite S in IH |- *. cbn [List.length repeat combine map fst snd]. rewrite oseq_cons', IH by (intros; apply Hl; right; assumption).
      unfold interaction_nn, two, op_matmul. rewrite kron_ok; [reflexivity|exact O|discriminate|]. constructor; [constructor; [|constructor]|constructor; [constructor|constructor]]. intros a [<-|[]] [E|[]]. pose proof (Hl q (or_introl eq_refl)). lia. }
    rewrite W; [reflexivity|]. intros q I. apply (pair_bounds n q I).
  - apply TBsum. apply Forall_forall. intros b I. apply in_map_iff in I as (q & <- & I). destruct (pair_bounds n q I) as (B1 & B2 & B3). apply TBscaled; [assumption|assumption|lia|reflexivity|discriminate].
  - intros q I. change (In q (ordered_pairs n)) in I. unfold full_nn. cbn [coupling].
    assert (W : forall l, (forall p, In p l -> (fst p < snd p)%nat) -> fold_right (fun b r => coupling rho b (fst q) (snd q) + r) 0 (map (fun q => BScale (BKron [BPrim (PN true) (fst q); BPrim (PN true) (snd q)]) (ECst (RtoC 1))) l) = rsum (map (fun p => (if peqb q p then 1 else 0) * 1) l)).
    { destruct (pair_bounds n q I) as (_ & _ & B). induction l as [|p l IH]; intros Hl; [reflexivity|]. cbn [map fold_right rsum]. rewrite IH by (intros; apply Hl; right; assumption). 
      change (coupling rho (BScale (BKron [BPrim (PN true) (fst p); BPrim (PN true) (snd p)]) (ECst (RtoC 1))) (fst q) (snd q)) with (1 * (if (Nat.eqb (fst p) (fst q) && Nat.eqb (snd p) (snd q)) || (Nat.eqb (fst p) (snd q) && Nat.eqb (snd p) (fst q)) then 1 else 0)).
      pose proof (Hl p (or_introl eq_refl)) as B'. unfold peqb. rewrite (Nat.eqb_sym (fst q)), (Nat.eqb_sym (snd q)).
      replace (Nat.eqb (fst p) (snd q) && Nat.eqb (snd p) (fst q)) with false by (symmetry; apply andb_false_iff; destruct (Nat.eqb_spec (fst p) (snd q)); [right; apply Nat.eqb_neq; lia|left; reflexivity]).
      rewrite orb_false_r. change (fold_right Rplus 0 (map (fun p0 => (if peqb q p0 then 1 else 0) * 1) l)) with (rsum (map (fun p0 => (if peqb q p0 then 1 else 0) * 1) l)). cbv beta. ring. }
    change (pairs_of n) with (ordered_pairs n). rewrite W by (intros p J; apply (pair_bounds n p J)). exact (rsum_delta peqb peqb_ok (fun _ => 1) (ordered_pairs n) q (pairs_nodup n) I).
Qed.

(** * Instances of the hypotheses, and the set orders of CPython *)
Definition exact_solver (n : nat) (size : nat) (M : nat -> nat -> R) (r : list R) : option (list R) := Some (map (times_ n (at_pair n r)) (ordered_pairs n)).
Lemma exact_solver_ok n : n <> 4%nat -> solves (exact_solver n) n /\ solves_all (exact_solver n) n.
Proof.
  intros N. split; [|intros M r x _ _ _ _; discriminate].
  intros M r x EM E. unfold exact_solver in E. injection E as <-. destruct (matrix_is n) as (M' & EM' & K). assert (M' = M) by congruence. subst M'. apply K. split; [rewrite map_length; apply pairs_length|].
  intros q I. rewrite over_pairs_psum, (psum_ext n _ (fun p => sgn p q * times_ n (at_pair n r) p)); [apply system_solution; assumption|]. intros p J. rewrite flips_sgn, at_pair_map by exact J. reflexivity.
Qed.
Definition asc (l : list nat) : list nat := filter (fun q => existsb (Nat.eqb q) l) (seq 0 (S (list_max l))).
Lemma sorted_seq k m : StronglySorted lt (seq k m).
Proof. revert k. induction m as [|m IH]; intros k; [constructor|]. cbn [seq]. constructor; [apply IH|]. apply Forall_forall. intros x I. apply in_seq in I. lia. Qed.
Lemma sorted_filter f l : StronglySorted lt l -> StronglySorted lt (filter f l).
Proof.
  induction 1 as [|a l S IH F]; [constructor|]. cbn [filter]. destruct (f a); [|exact IH]. constructor; [exact IH|]. apply Forall_forall. intros x I. apply filter_In in I as [I _]. exact (proj1 (Forall_forall _ _) F x I).
Qed.
Lemma asc_sorted l : StronglySorted lt (asc l).
Proof. apply sorted_filter, sorted_seq. Qed.
Lemma asc_order : set_order asc.
Proof.
  intros l. split; [apply NoDup_filter, seq_NoDup|]. intros q. unfold asc. rewrite filter_In, in_seq, existsb_exists. split.
  - intros (_ & r & I & E). apply Nat.eqb_eq in E. subst r. exact I.
  - intros I. split; [|exists q; split; [exact I|apply Nat.eqb_refl]]. pose proof (proj1 (list_max_le l (list_max l)) (le_n _)) as M. rewrite Forall_forall in M. specialize (M q I). lia.
Qed.
(** The order of CPython for sets of small integers: the numbers modulo the size of the hash table, which is 8 for up to four
    elements.  For two elements below 9 it differs from the increasing order exactly for {j, 8} with 1 <= j <= 7; here for {1, 8}. *)
Definition cpython (l : list nat) : list nat :=
  if forallb (fun q => Nat.eqb q 1 || Nat.eqb q 8) l && existsb (Nat.eqb 1) l && existsb (Nat.eqb 8) l then [8; 1]%nat else asc l.
Lemma cpython_order : set_order cpython.
Proof.
  intros l. unfold cpython. destruct (forallb _ l && existsb (Nat.eqb 1) l && existsb (Nat.eqb 8) l) eqn:E; [|apply asc_order].
  apply andb_true_iff in E as [E E8]. apply andb_true_iff in E as [E E1]. rewrite forallb_forall in E. apply existsb_exists in E1 as (a & Ia & Ea). apply Nat.eqb_eq in Ea. subst a. apply existsb_exists in E8 as (c & Ic & Ec). apply Nat.eqb_eq in Ec. subst c.
  split; [repeat constructor; cbn; lia|]. intros q. split; [intros [<- | [<- | []]]; assumption|]. intros I. specialize (E q I). apply orb_true_iff in E as [E|E]; apply Nat.eqb_eq in E; subst q; cbn; auto.
Qed.
Example ex_orders : (forall n, ascending_below n asc) /\ ascending_below 8 cpython /\ cpython [1; 8]%nat = [8; 1]%nat.
Proof.
  split; [intros n l _; apply asc_sorted|]. split; [|reflexivity]. intros l H. unfold cpython. destruct (forallb _ l && existsb (Nat.eqb 1) l && existsb (Nat.eqb 8) l) eqn:E; [|apply asc_sorted].
  apply andb_true_iff in E as [_ E]. apply existsb_exists in E as (c & I & E). apply Nat.eqb_eq in E. subst c. specialize (H 8%nat I). lia.
Qed.
Definition zzb (j k : nat) : block := BKron [BPrim PZ j; BPrim PZ k].

(** Three qubits, all-to-all N N build Hamiltonian, target Z Z on qubits 0 and 1 for time 1: the slice times are 0, -2 and -2. *)
Example ex_daqc : forall rho, exists b, daqc_transform asc rho (exact_solver 3) 3 (zzb 0 1) 1 None (1 / 100) true false = Some b /\
  den rho b = den rho (BEvo (zzb 0 1) (ECst (RtoC 1))).
Proof.
  intros rho. destruct (C28_default asc rho (exact_solver 3) 3 (zzb 0 1) 1 (1 / 100) true false asc_order) as (-> & TB & CB).
  assert (TT : two_body rho PZ 3 (zzb 0 1)) by (apply TBpair; lia). assert (S := exact_solver_ok 3 ltac:(discriminate)). assert (A := proj1 ex_orders 3%nat).
  assert (IN : In (PN true) [PZ; PN true]) by (right; left; reflexivity). assert (IZ : In PZ [PZ; PN true]) by (left; reflexivity).
  destruct (C28_total asc rho (exact_solver 3) 3 (PN true) PZ (full_nn 3) (zzb 0 1) 1 (1 / 100) false asc_order A (proj2 S) ltac:(lra) ltac:(discriminate) IN IZ TB TT eq_refl eq_refl) as [b E].
  - intros q I _. rewrite CB by exact I. rewrite Rabs_R1. lra.
  - exists b. split; [exact E|]. destruct (C28_exact asc rho (exact_solver 3) 3 (PN true) PZ (full_nn 3) (zzb 0 1) 1 (1 / 100) false b asc_order A (proj1 S) ltac:(lra) IN IZ TB TT) as (ph & P0 & D).
    + intros q I _. rewrite CB by exact I. lra.
    + intros t HT. pose (t0 := fun p : nat * nat => if peqb p (0, 1)%nat then 0 else -2).
      assert (H0 : slice_times rho 3 (PN true) PZ (full_nn 3) (zzb 0 1) 1 t0).
      { intros q I. rewrite CB by exact I. destruct (Req_EM_T 1 0) as [X|_]; [lra|]. cbn in I. unfold over_pairs, flips, t0, peqb, zz_part. 
        destruct I as [<- | [<- | [<- | []]]]; cbn; field. }
      intros q I. assert (Eq : t q = t0 q) by (apply (proj2 (C28_solvable 3 ltac:(discriminate) (fun q => (if Req_EM_T (coupling rho (full_nn 3) (fst q) (snd q)) 0 then 0 else coupling rho (zzb 0 1) (fst q) (snd q) / coupling rho (full_nn 3) (fst q) (snd q)) * (1 * zz_part PZ / zz_part (PN true)))) t t0 HT H0 q I)).
      rewrite Eq. unfold t0. destruct (peqb q (0, 1)%nat); [left; reflexivity|right; unfold Rabs; destruct (Rcase_abs (-2)); lra].
    + exact E.
    + rewrite D, (P0 eq_refl). unfold cis. rewrite cos_0, sin_0. change (1, 0) with (RtoC 1). exact (scaleop_one _).
Qed.

(** * From nine qubits on the order of sets matters *)
Lemma parse1 s rho i j u v beta zt : locals (bsup s (zzb i j)) = [u; v] -> tpos (flat_size 9) (ix_map 9 (u + 1) (v + 1) - 1) = Some beta -> ((u <? 9) && (v <? 9))%nat = true ->
  exists mat, parse_generator s rho 9 (zzb i j) zt = Some (map (fun v => if Req_EM_T v 0 then zt else v) (bump (repeat 0 (flat_size 9)) beta 1), mat, GZZ).
Proof.
  intros E1 E2 E3. unfold parse_generator. change (unroll_block_with_scaling (zzb i j)) with [(zzb i j, ECst (RtoC 1))]. cbn [fold_left]. unfold parse_term. cbn [fst snd]. unfold zzb at 1. fold (zzb i j). rewrite E1. cbn [paulis_types option_map].
  change (ev rho (ECst (RtoC 1))) with (RtoC 1). change (snd (RtoC 1)) with 0. change (fst (RtoC 1)) with 1. destruct (Req_EM_T 0 0) as [_|X]; [|contradiction (X eq_refl)]. rewrite E2, E3. cbn [p_list p_mat p_types app]. cbn [type_of forallb is_zz andb]. eexists. reflexivity.
Qed.
(** A target Z Z on qubits 1 and 8 of nine is taken for one on qubits 4 and 7: with the build Hamiltonian on qubits 4 and 7 the
    transform returns the evolution of the build Hamiltonian, which is not the target evolution. *)
Theorem C28_order_refuted : forall rho, exists b,
  daqc_transform cpython rho (exact_solver 9) 9 (zzb 1 8) 1 (Some (zzb 4 7)) (1 / 100) true false = Some b /\
  den rho b = den rho (BEvo (zzb 4 7) (ECst (RtoC 1))) /\
  forall phase, den rho b <> scaleop (cis phase) (den rho (BEvo (zzb 1 8) (ECst (RtoC 1)))).
Proof.
  intros rho.
  assert (TT : forall j k, (j < 9)%nat -> (k < 9)%nat -> j <> k -> two_body rho PZ 9 (zzb j k)) by (intros; apply TBpair; assumption).
  assert (IZ : In PZ [PZ; PN true]) by (left; reflexivity). assert (Z : zorn PZ) by (left; reflexivity). assert (S := exact_solver_ok 9 ltac:(discriminate)). assert (A := proj1 ex_orders 9%nat).
  assert (TB := TT 4%nat 7%nat ltac:(lia) ltac:(lia) ltac:(lia)).
  assert (SAME : daqc_transform cpython rho (exact_solver 9) 9 (zzb 1 8) 1 (Some (zzb 4 7)) (1 / 100) true false = daqc_transform asc rho (exact_solver 9) 9 (zzb 4 7) 1 (Some (zzb 4 7)) (1 / 100) true false).
  { unfold daqc_transform. cbn [negb Nat.eqb obind].
    rewrite (two_body_paulis rho PZ 9 _ Z (TT 1%nat 8%nat ltac:(lia) ltac:(lia) ltac:(lia))), (two_body_paulis rho PZ 9 _ Z TB). cbn [negb orb].
    destruct (parse1 cpython rho 1 8 8 1 28 0 eq_refl eq_refl eq_refl) as [m1 ->]. destruct (parse1 cpython rho 4 7 4 7 28 (1 / 100) eq_refl eq_refl eq_refl) as [m2 ->].
    destruct (parse1 asc rho 4 7 4 7 28 0 eq_refl eq_refl eq_refl) as [m3 ->]. destruct (parse1 asc rho 4 7 4 7 28 (1 / 100) eq_refl eq_refl eq_refl) as [m4 ->]. cbn [obind].
    match goal with |- (if ?c then _ else _) = _ => destruct c; [|reflexivity] end. destruct (build_matrix_M 9) as [M|]; [|reflexivity]. cbn [obind].
    match goal with |- obind ?x _ = _ => destruct x as [y|]; [|reflexivity] end. cbn [obind option_map].
    rewrite (proj2 (slices_total cpython asc 9 (zzb 4 7) None (map (fun v => v * 1) y) (1 / 100) cpython_order asc_order (loop_pairs 9) (fun p I => I))). reflexivity. }
  assert (CPL : forall q, In q (pairs_of 9) -> coupling rho (zzb 4 7) (fst q) (snd q) = if peqb (4, 7)%nat q then 1 else 0).
  { intros q I. destruct (pair_bounds 9 q I) as (_ & _ & B). unfold zzb, peqb. cbn [coupling fst snd]. replace (Nat.eqb 4 (snd q) && Nat.eqb 7 (fst q)) with false; [rewrite orb_false_r; reflexivity|]. symmetry. apply andb_false_iff. destruct (Nat.eqb_spec 4 (snd q)); [right; apply Nat.eqb_neq; lia|left; reflexivity]. }
  assert (I47 : In (4, 7)%nat (ordered_pairs 9)) by (apply in_pairs; lia).
  destruct (C28_total asc rho (exact_solver 9) 9 PZ PZ (zzb 4 7) (zzb 4 7) 1 (1 / 100) false asc_order A (proj2 S) ltac:(lra) ltac:(discriminate) IZ IZ TB TB eq_refl eq_refl (fun q _ H => H)) as [b E].
  exists b. rewrite SAME. split; [exact E|].
  destruct (C28_exact asc rho (exact_solver 9) 9 PZ PZ (zzb 4 7) (zzb 4 7) 1 (1 / 100) false b asc_order A (proj1 S) ltac:(lra) IZ IZ TB TB (fun q _ H => H)) as (ph & P0 & D); [|exact E|].
  { intros t HT q I. pose (r := fun q : nat * nat => if peqb (4, 7)%nat q then 1 else 0).
    assert (Et : t q = times_ 9 r q).
    { apply system_unique; [discriminate| |exact I]. intros p J. rewrite <- (psum_ext 9 (fun p0 => flips p0 p * t p0)) by (intros; rewrite flips_sgn; reflexivity). change (over_pairs 9 (fun p0 => flips p0 p * t p0) = r p). rewrite (HT p J), CPL by exact J. unfold zz_part, r. destruct (peqb (4, 7)%nat p); destruct (Req_EM_T _ 0); lra. }
    right. rewrite Et. unfold times_, row_, tot_.
    assert (E1 : psum 9 r = 1). { rewrite <- (rsum_delta peqb peqb_ok (fun _ => 1) (ordered_pairs 9) (4, 7)%nat (pairs_nodup 9) I47). apply rsum_ext. intros p _. unfold r. ring. }
    assert (E2 : forall j, row 9 r j = ind j (4, 7)%nat).
    { intros j. unfold row. rewrite <- (rsum_delta peqb peqb_ok (fun p => ind j p) (ordered_pairs 9) (4, 7)%nat (pairs_nodup 9) I47). apply rsum_ext. intros p _. unfold r. ring. }
    rewrite E1, !E2. unfold disc. replace (INR 9) with 9 by (cbn; ring).
    destruct (pair_bounds 9 q I) as (_ & _ & B). unfold r, peqb, ind, touches. cbn [fst snd].
    assert (W : (q = (4, 7)%nat) \/ (q <> (4, 7)%nat)) by (destruct (peqb q (4, 7)%nat) eqn:Q; [left; apply peqb_ok, Q|right; intros X; apply peqb_ok in X; congruence]).
    destruct W as [->|W].
    - cbn. unfold Rabs. destruct (Rcase_abs _); lra.
    - assert (W' : Nat.eqb 4 (fst q) && Nat.eqb 7 (snd q) = false).
      { apply andb_false_iff. destruct (Nat.eqb_spec 4 (fst q)); [|left; reflexivity]. right. apply Nat.eqb_neq. intros X. apply W. destruct q. cbn in *. subst. reflexivity. }
      rewrite W'. destruct (Nat.eqb (fst q) 4 || Nat.eqb (fst q) 7) eqn:U1, (Nat.eqb (snd q) 4 || Nat.eqb (snd q) 7) eqn:U2.
      + exfalso. apply orb_true_iff in U1, U2. rewrite !Nat.eqb_eq in U1, U2. apply W. destruct q as [a c]. cbn [fst snd] in *. assert (a = 4%nat /\ c = 7%nat) as [-> ->] by lia. reflexivity.
      + unfold Rabs. destruct (Rcase_abs _); lra.
      + unfold Rabs. destruct (Rcase_abs _); lra.
      + unfold Rabs. destruct (Rcase_abs _); lra. }
  assert (D' : den rho b = den rho (BEvo (zzb 4 7) (ECst (RtoC 1)))).
  { rewrite D, (P0 eq_refl). unfold cis. rewrite cos_0, sin_0. change (1, 0) with (RtoC 1). exact (scaleop_one _). }
  split; [exact D'|]. intros phase Q. rewrite D' in Q.
  assert (EV : forall j k, (j < 9)%nat -> (k < 9)%nat -> j <> k -> den rho (BEvo (zzb j k) (ECst (RtoC 1))) = diag (fun x => - (zs x j * zs x k))).
  { intros j k Hj Hk Hjk. rewrite (evo_rdiag rho (zzb j k) (ECst (RtoC 1)) (fun x => zs x j * zs x k)); [apply diag_ext; intros x; unfold ang; simpl; ring|].
    unfold zzb. rewrite (kron2_den rho PZ j k Z). apply rdiag_ext. intros x. rewrite <- pe_sym. reflexivity. }
  rewrite !EV in Q by lia.
  pose (x0 := fun _ : nat => false). pose (x1 := fun q : nat => Nat.eqb q 1).
  pose proof (f_equal (fun A : Op => A (fun _ => RtoC 1) x0) Q) as Q0. pose proof (f_equal (fun A : Op => A (fun _ => RtoC 1) x1) Q) as Q1. cbv beta in Q0, Q1.
  unfold scaleop, diag, zs, x0, x1 in Q0, Q1. cbn [Nat.eqb] in Q0, Q1. rewrite !Cmult_1_r, cis_add in Q0. rewrite !Cmult_1_r in Q1. rewrite cis_add in Q1.
  assert (W : forall a b : R, cis a = cis b -> cos a = cos b /\ sin a = sin b) by (intros a c H; unfold cis in H; injection H; auto).
  apply W in Q0 as [Q0 Q0']. apply W in Q1 as [Q1 Q1'].
  assert (H1 : cos phase = 1 /\ sin phase = 0).
  { replace (phase + - (1 * 1)) with (phase - 1) in Q0, Q0' by ring. replace (- (1 * 1)) with (- (1)) in Q0, Q0' by ring. rewrite cos_neg, cos_minus in Q0. rewrite sin_neg, sin_minus in Q0'. pose proof (sin2_cos2 1) as SC. unfold Rsqr in SC.
    set (c := cos 1) in *. set (s := sin 1) in *. set (cp := cos phase) in *. set (sp := sin phase) in *.
    assert (H1 : cp * (s * s + c * c) = c * (cp * c + sp * s) - s * (sp * c - cp * s)) by ring. assert (H2 : sp * (s * s + c * c) = s * (cp * c + sp * s) + c * (sp * c - cp * s)) by ring.
    rewrite <- Q0, <- Q0', SC in H1, H2. split; nra. }
  destruct H1 as [Hc Hs]. replace (phase + - (-1 * 1)) with (phase + 1) in Q1' by ring. rewrite sin_plus, Hc, Hs in Q1'. replace (- (1 * 1)) with (- (1)) in Q1' by ring. rewrite sin_neg in Q1'.
  assert (0 < sin 1) by (apply sin_gt_0; pose proof PI2_1; lra). lra.
Qed.

Print Assumptions C28_error.
Print Assumptions C28_exact.
Print Assumptions C28_solvable.
Print Assumptions C28_four_singular.
Print Assumptions C28_total.
Print Assumptions C28_rejects.
Print Assumptions C28_incompatible.
Print Assumptions C28_default.
Print Assumptions C28_order_refuted.
