(** C86: the diagonal of an observable and its sparse tensor. *)
From Coq Require Import String Reals List Arith Bool Lia Lra FunctionalExtensionality Permutation Sorted.
From Coquelicot Require Import Coquelicot.
From Coq Require Import List.
From Verif Require Import S_Sets S_Ops L_Ops M_QubitSupport M_Block S_Den L_Den M_BlockOps L_Support M_Tensor L_Tensor P_Tensor M_Transpile M_Pauli M_Samples M_Diagonal.
Import ListNotations.
Open Scope R_scope.
Open Scope C_scope.

(** * Specification *)
(** The entry of the matrix that a sparse tensor stands for. *)
Definition dense (s : sparse) (i j : nat) : C :=
  csum (fun e : nat * nat * C => if Nat.eqb (fst (fst e)) i && Nat.eqb (snd (fst e)) j then snd e else 0) (sp_entries s).

(** * The diagonal and the matrix agree *)
Record drel (M : tensor) (v : dvec) : Prop := {
  dr_size : dim M = size v;
  dr_at : forall i j, (i < dim M)%nat -> (j < dim M)%nat -> ent M i j = if Nat.eqb i j then at_ v i else 0
}.
Definition orel (m : option tensor) (v : option dvec) : Prop :=
  match m, v with Some M, Some w => drel M w | None, None => True | _, _ => False end.

Lemma drel_kron A B v w : drel A v -> drel B w -> drel (t_kron A B) (d_kron v w).
Proof.
  intros [S1 A1] [S2 A2]. split; cbn [dim size t_kron d_kron ent at_]; [rewrite S1, S2; reflexivity|].
  intros i j Hi Hj. assert (Hb : dim B <> 0%nat) by (intros E; rewrite E, Nat.mul_0_r in Hi; lia).
  rewrite A1, A2.
  - rewrite <- S2. destruct (Nat.eqb i j) eqn:E.
    + apply Nat.eqb_eq in E. subst j. rewrite !Nat.eqb_refl. reflexivity.
    + apply Nat.eqb_neq in E. destruct (Nat.eqb (i / dim B) (j / dim B)) eqn:E1, (Nat.eqb (i mod dim B) (j mod dim B)) eqn:E2; try ring.
      exfalso. apply E. apply Nat.eqb_eq in E1, E2. rewrite (Nat.div_mod i (dim B) Hb), (Nat.div_mod j (dim B) Hb), E1, E2. reflexivity.
  - apply Nat.mod_upper_bound. exact Hb.
  - apply Nat.mod_upper_bound. exact Hb.
  - apply Nat.div_lt_upper_bound; [exact Hb|]. rewrite Nat.mul_comm. exact Hi.
  - apply Nat.div_lt_upper_bound; [exact Hb|]. rewrite Nat.mul_comm. exact Hj.
Qed.
Lemma drel_kron_end e A B v w : drel A v -> drel B w -> drel (kron_end e A B) (d_kron_end e v w).
Proof. intros H1 H2. destruct e; apply drel_kron; assumption. Qed.
Lemma csum_pick (f : nat -> C) n i : (i < n)%nat -> csum (fun k => if Nat.eqb i k then f k else 0) (seq 0 n) = f i.
Proof.
  assert (G : forall m a, csum (fun k => if Nat.eqb i k then f k else 0) (seq a m) = if (Nat.leb a i && Nat.ltb i (a + m))%bool then f i else 0).
  { induction m as [|m IH]; intros a; cbn [seq csum].
    - rewrite Nat.add_0_r. destruct (Nat.leb_spec a i), (Nat.ltb_spec i a); cbn; try reflexivity; lia.
    - rewrite IH. destruct (Nat.eqb_spec i a); destruct (Nat.leb_spec (S a) i), (Nat.leb_spec a i), (Nat.ltb_spec i (S a + m)), (Nat.ltb_spec i (a + S m)); cbn; try lia; subst; ring. }
  intros H. rewrite G. cbn [Nat.leb andb]. destruct (Nat.ltb_spec i (0 + n)); [reflexivity|lia].
Qed.
Lemma drel_mul A B v w : drel A v -> drel B w -> orel (t_mul B A) (d_mul v w).
Proof.
  intros [S1 A1] [S2 A2]. unfold t_mul, d_mul. rewrite S1, S2. rewrite (Nat.eqb_sym (size w)). destruct (Nat.eqb (size v) (size w)) eqn:E; [|exact I].
  apply Nat.eqb_eq in E. split; cbn [dim size ent at_]; [symmetry; exact E|].
  intros i j Hi Hj.
  rewrite (csum_ext _ (fun k => if Nat.eqb i k then at_ w i * ent A k j else 0)).
  - rewrite csum_pick by exact Hi. rewrite A1 by lia. destruct (Nat.eqb i j); ring.
  - intros k Hk. apply in_seq in Hk. rewrite A2 by lia. destruct (Nat.eqb i k); ring.
Qed.
Lemma drel_add A B v w : drel A v -> drel B w -> orel (t_add A B) (d_add v w).
Proof.
  intros [S1 A1] [S2 A2]. unfold t_add, d_add. rewrite S1, S2. destruct (Nat.eqb (size v) (size w)) eqn:E; [|exact I].
  apply Nat.eqb_eq in E. split; cbn [dim size ent at_]; [reflexivity|].
  intros i j Hi Hj. rewrite A1, A2 by lia. destruct (Nat.eqb i j); ring.
Qed.
Lemma drel_I : drel IMAT (diag_of IMAT).
Proof. split; [reflexivity|]. cbn [dim IMAT t2]. intros [|[|i]] [|[|j]] Hi Hj; try lia; reflexivity. Qed.
Lemma drel_Z : drel ZMAT (diag_of ZMAT).
Proof. split; [reflexivity|]. cbn [dim ZMAT t2]. intros [|[|i]] [|[|j]] Hi Hj; try lia; reflexivity. Qed.
Lemma drel_fill e M qs full : drel M (diag_of M) -> orel (t_fill_identities e M qs full) (d_fill_identities e M qs full).
Proof.
  intros H. unfold t_fill_identities, d_fill_identities. destruct (sorted full) as [|f0 rest]; [exact I|]. destruct (sorted qs) as [|q0 r]; [exact I|].
  cbn [orel].
  assert (G : forall l A v, drel A v -> drel (fold_left (fill_step e M (q0 :: r) q0) l A) (fold_left (d_fill_step e (diag_of M) (q0 :: r) q0) l v)).
  { induction l as [|i l IH]; intros A v Hv; [exact Hv|]. cbn [fold_left]. apply IH. unfold fill_step, d_fill_step.
    destruct (Nat.eqb i q0); [apply drel_kron_end; assumption|]. destruct (existsb (Nat.eqb i) (q0 :: r)); [exact Hv|]. apply drel_kron_end; [exact Hv|apply drel_I]. }
  apply G. destruct (Nat.eqb q0 f0); [exact H|apply drel_I].
Qed.
Lemma dim_eye n : n <> 0%nat -> dim (eye_n n) = (2 ^ n)%nat.
Proof.
  intros H. unfold eye_n. destruct n as [|n]; [congruence|]. replace (S n - 1)%nat with n by lia. clear H.
  induction n as [|n IH]; [reflexivity|]. change (Nat.iter (S n) (fun m => t_kron m IMAT) IMAT) with (t_kron (Nat.iter n (fun m => t_kron m IMAT) IMAT) IMAT).
  cbn [t_kron dim]. rewrite IH. cbn [dim IMAT t2]. rewrite (Nat.pow_succ_r' 2 (S n)). lia.
Qed.
Lemma drel_eye n : n <> 0%nat -> drel (eye_n n) (mkD (2 ^ n) (fun _ => 1)).
Proof.
  intros H. split; [exact (dim_eye n H)|]. intros i j Hi Hj. cbn [at_].
  unfold eye_n in *. destruct n as [|n]; [congruence|]. replace (S n - 1)%nat with n in * by lia. clear H.
  assert (G : exists v, drel (Nat.iter n (fun m => t_kron m IMAT) IMAT) v /\ forall i, (i < size v)%nat -> at_ v i = 1).
  { clear. induction n as [|n [v [IH1 IH2]]].
    - exists (diag_of IMAT). split; [apply drel_I|]. intros [|[|i]] Hi; cbn in *; try lia; reflexivity.
    - exists (d_kron v (diag_of IMAT)). split; [apply (drel_kron _ _ _ _ IH1 drel_I)|]. cbn [d_kron size at_]. intros i Hi.
      cbn [size diag_of dim IMAT t2] in *. rewrite IH2 by (apply Nat.div_lt_upper_bound; lia).
      pose proof (Nat.mod_upper_bound i 2 ltac:(lia)) as Hm. destruct (i mod 2) as [|[|k]]; cbn; try lia; ring. }
  destruct G as [v [[S1 A1] G]]. rewrite A1 by assumption. destruct (Nat.eqb i j); [|reflexivity]. apply G. rewrite <- S1. exact Hi.
Qed.
Lemma drel_zero n : n <> 0%nat -> drel (zero_n n) (mkD (2 ^ n) (fun _ => 0)).
Proof.
  intros H. unfold zero_n. destruct n as [|n]; [congruence|]. replace (S n - 1)%nat with n by lia. clear H.
  induction n as [|n [S1 A1]].
  - split; [reflexivity|]. cbn [dim ZEROMAT t2 Nat.iter nat_rect]. intros [|[|i]] [|[|j]] Hi Hj; try lia; reflexivity.
  - change (Nat.iter (S n) (fun m => t_kron m ZEROMAT) ZEROMAT) with (t_kron (Nat.iter n (fun m => t_kron m ZEROMAT) ZEROMAT) ZEROMAT).
    cbn [size] in S1. split; cbn [t_kron dim size ent at_].
    + rewrite S1. cbn [dim ZEROMAT t2]. rewrite (Nat.pow_succ_r' 2 (S n)). lia.
    + intros i j Hi Hj.
      assert (Z : forall a b, ent ZEROMAT a b = 0) by (intros [|a] [|b]; reflexivity). rewrite Z. destruct (Nat.eqb i j); ring.
Qed.
Lemma fold_none {A B} (f : A -> B -> option A) (l : list (option B)) : fold_left (fun acc m => obind acc (fun a => obind m (fun b => f a b))) l None = None.
Proof. induction l as [|x l IH]; [reflexivity|exact IH]. Qed.
Lemma drel_loop (f : tensor -> tensor -> option tensor) (g : dvec -> dvec -> option dvec) :
  (forall A B v w, drel A v -> drel B w -> orel (f A B) (g v w)) ->
  forall ms ds, Forall2 orel ms ds -> forall A v, orel A v ->
  orel (fold_left (fun acc m => obind acc (fun a => obind m (fun b => f a b))) ms A) (fold_left (fun acc d => obind acc (fun v => obind d (fun w => g v w))) ds v).
Proof.
  intros H ms ds F. induction F as [|m d ms ds Hm F IH]; intros A v Hv; [exact Hv|]. cbn [fold_left]. apply IH.
  destruct A as [A|], v as [v|]; try contradiction; [|exact I]. cbn [obind]. destruct m as [M|], d as [w|]; try contradiction; [|exact I]. cbn [obind]. apply H; assumption.
Qed.

Lemma diag_inv b : is_diag_pauli b = true -> match b with
  | BChain bs | BKron bs | BAdd bs => forall x, In x bs -> is_diag_pauli x = true
  | BScale b' _ => is_diag_pauli b' = true
  | BPrim p _ => p = PZ \/ p = PI_
  | _ => False end.
Proof.
  intros H. destruct b; cbn [is_diag_pauli] in H; apply andb_prop in H as [_ H]; try discriminate; try exact H.
  - destruct p; try discriminate; auto.
  - apply forallb_forall. exact H.
  - apply forallb_forall. exact H.
  - apply forallb_forall. exact H.
Qed.
Lemma b2d_orel si rho values full : full <> [] -> (forall s, values s = [ev rho s]) ->
  forall b, is_diag_pauli b = true -> orel (b2t BIG rho full si b) (b2d values full BIG b).
Proof.
  intros Hf Hv b. assert (Hn : length full <> 0%nat) by (destruct full; [congruence|discriminate]).
  assert (L : forall bs, Forall (fun b => is_diag_pauli b = true -> orel (b2t BIG rho full si b) (b2d values full BIG b)) bs ->
    (forall x, In x bs -> is_diag_pauli x = true) -> Forall2 orel (map (b2t BIG rho full si) bs) (map (b2d values full BIG) bs)).
  { intros bs F D. induction F as [|x l Hx F IH]; constructor; [apply Hx; apply D; left; reflexivity|]. apply IH. intros y Hy. apply D. right. exact Hy. }
  induction b as [p q|kt br qs|r q e|q e1 e2 e3|a c|c a d|cs b IH|cs b IH|b e IH|bs IH|bs IH|bs IH|m qs|g t IH] using block_ind'; intros D;
    pose proof (diag_inv _ D) as J; cbn in J; try contradiction; cbn [b2d b2t]; rewrite D; cbn [negb].
  - unfold leaf. destruct J as [J|J]; subst p; cbn [operations_dict obind]; apply drel_fill; [apply drel_Z|apply drel_I].
  - specialize (IH J). destruct (b2t BIG rho full si b) as [M|], (b2d values full BIG b) as [v|]; try contradiction; [|exact I].
    cbn [obind]. rewrite Hv. cbn [d_scale orel]. destruct IH as [S1 A1]. split; cbn [t_scale dim size ent at_]; [exact S1|].
    intros i j Hi Hj. rewrite A1 by assumption. destruct (Nat.eqb i j); ring.
  - apply (drel_loop (fun a b => t_mul b a)); [intros; apply drel_mul; assumption|apply L; assumption|apply drel_eye; exact Hn].
  - apply (drel_loop (fun a b => t_mul b a)); [intros; apply drel_mul; assumption|apply L; assumption|apply drel_eye; exact Hn].
  - apply (drel_loop t_add); [intros; apply drel_add; assumption|apply L; assumption|apply drel_zero; exact Hn].
Qed.

(** * The sparse tensor *)
Lemma zero_dec_spec c : zero_dec c = true -> c = 0.
Proof. unfold zero_dec. destruct (Req_EM_T (fst c) 0); [|discriminate]. destruct (Req_EM_T (snd c) 0); [|discriminate]. intros _. destruct c. cbn in *. subst. reflexivity. Qed.
Lemma dense_spec n f i j : (i < n)%nat -> (j < n)%nat ->
  dense (mkSp n (map (fun k => (k, k, f k)) (filter (fun k => negb (zero_dec (f k))) (seq 0 n)))) i j = if Nat.eqb i j then f i else 0.
Proof.
  intros Hi Hj. unfold dense. cbn [sp_entries]. rewrite csum_map. cbn [fst snd].
  assert (G : forall l, csum (fun k => if Nat.eqb k i && Nat.eqb k j then f k else 0) (filter (fun k => negb (zero_dec (f k))) l)
    = csum (fun k => if Nat.eqb i k then (if Nat.eqb i j then f k else 0) else 0) l).
  { induction l as [|k l IH]; [reflexivity|]. cbn [filter csum].
    assert (E : (if Nat.eqb k i && Nat.eqb k j then f k else 0) = (if Nat.eqb i k then (if Nat.eqb i j then f k else 0) else 0)).
    { rewrite (Nat.eqb_sym k i). destruct (Nat.eqb i k) eqn:E; [|reflexivity]. apply Nat.eqb_eq in E. subst. reflexivity. }
    destruct (zero_dec (f k)) eqn:Z; cbn [negb csum].
    - rewrite IH, <- E. apply zero_dec_spec in Z. rewrite Z. destruct (Nat.eqb k i && Nat.eqb k j); ring.
    - rewrite IH, E. reflexivity. }
  rewrite G, (csum_pick (fun k => if Nat.eqb i j then f k else 0)) by exact Hi. reflexivity.
Qed.

(** The diagonal, the sparse tensor and the dense matrix that block_to_tensor computes agree: the dense matrix is zero off the
    diagonal. *)
Theorem C86_same_as_dense : forall set_iter rho values b qs full,
  is_diag_pauli b = true -> locals (bsup set_iter b) <> [] -> (forall s, values s = [ev rho s]) ->
  match block_to_tensor BIG set_iter false rho b with
  | Some M => exists v s, block_to_diagonal BIG set_iter None false values b = Some v
      /\ block_to_sparse BIG set_iter qs full values b = Some s /\ size v = dim M /\ sp_size s = dim M
      /\ forall i j, (i < dim M)%nat -> (j < dim M)%nat ->
           dense s i j = ent M i j /\ ent M i j = if Nat.eqb i j then at_ v i else 0
  | None => block_to_diagonal BIG set_iter None false values b = None /\ block_to_sparse BIG set_iter qs full values b = None
  end.
Proof.
  intros si rho values b qs full D Hl Hv. pose proof (b2d_orel si rho values (locals (bsup si b)) Hl Hv b D) as H.
  unfold block_to_sparse, block_to_diagonal, block_to_tensor. destruct (b2t BIG rho (locals (bsup si b)) si b) as [M|], (b2d values (locals (bsup si b)) BIG b) as [v|]; try contradiction; [|split; reflexivity].
  destruct H as [S1 A1]. exists v. eexists. split; [reflexivity|]. cbn [obind]. split; [reflexivity|]. cbn [sp_size]. split; [symmetry; exact S1|]. split; [symmetry; exact S1|].
  intros i j Hi Hj. rewrite dense_spec by (rewrite <- S1; assumption). rewrite A1 by assumption. split; reflexivity.
Qed.

(** ... and it is the operator the block denotes, on the sorted qubits of the block. *)
Lemma diag_t_ok order b : is_diag_pauli b = true -> t_ok order b.
Proof.
  induction b as [p q|kt br qs|r q e|q e1 e2 e3|a c|c a d|cs b IH|cs b IH|b e IH|bs IH|bs IH|bs IH|m qs|g t IH] using block_ind'; intros D;
    pose proof (diag_inv _ D) as J; cbn in J; try contradiction; cbn [t_ok].
  - destruct J as [J|J]; subst p; split; discriminate.
  - exact (IH J).
  - clear D. induction IH as [|x l Hx F IHl]; cbn; [exact I|]. split; [apply Hx; apply J; left; reflexivity|apply IHl; intros y Hy; apply J; right; exact Hy].
  - clear D. induction IH as [|x l Hx F IHl]; cbn; [exact I|]. split; [apply Hx; apply J; left; reflexivity|apply IHl; intros y Hy; apply J; right; exact Hy].
  - clear D. induction IH as [|x l Hx F IHl]; cbn; [exact I|]. split; [apply Hx; apply J; left; reflexivity|apply IHl; intros y Hy; apply J; right; exact Hy].
Qed.
Lemma diag_support si b : set_order si -> is_diag_pauli b = true -> NoDup (locals (bsup si b)) /\ forall q, In q (locals (bsup si b)) <-> In q (qubits b).
Proof.
  intros Hs D. destruct (bsup_spec si Hs b) as (l & E & Hl & Hn). rewrite E. cbn [locals]. split; [|exact Hl].
  revert l E Hl Hn. induction b as [p q|kt br qs|r q e|q e1 e2 e3|a c|c a d|cs b IH|cs b IH|b e IH|bs IH|bs IH|bs IH|m qs|g t IH] using block_ind'; intros l E Hl Hn;
    pose proof (diag_inv _ D) as J; cbn in J; try contradiction; try exact Hn.
  - cbn in E. injection E as E. subst l. repeat constructor. intros [].
  - cbn in E. destruct (bsup_spec si Hs b) as (l' & E' & Hl' & Hn'). rewrite E in E'. injection E' as E'. subst l'. exact (IH J l E Hl' Hn').
Qed.
Theorem C86_entries : forall set_iter rho values b fs qs full,
  set_order set_iter -> is_diag_pauli b = true -> qubits b <> [] -> (forall s, values s = [ev rho s]) ->
  StronglySorted lt fs -> (forall q, In q fs <-> In q (qubits b)) ->
  exists v s, block_to_diagonal BIG set_iter None false values b = Some v /\ block_to_sparse BIG set_iter qs full values b = Some s
    /\ size v = (2 ^ length fs)%nat /\ sp_size s = (2 ^ length fs)%nat
    /\ forall r c, length r = length fs -> length c = length fs ->
         at_ v (bits_to_nat r) = matof fs (den rho b) r r /\ dense s (bits_to_nat r) (bits_to_nat c) = matof fs (den rho b) r c.
Proof.
  intros si rho values b fs qs full Hs D Hq Hv HS Hf.
  destruct (diag_support si b Hs D) as [N Hl].
  assert (Hne : locals (bsup si b) <> []).
  { intros E. destruct (qubits b) as [|q r]; [congruence|]. pose proof (proj2 (Hl q) (or_introl eq_refl)) as K. rewrite E in K. destruct K. }
  assert (SL : StronglySorted le fs).
  { clear -HS. induction HS; constructor; auto. eapply Forall_impl; [|eassumption]. simpl; intros; lia. }
  assert (NF : NoDup fs).
  { clear -HS. induction HS as [|a l S IH F]; constructor; auto. intros Ha. rewrite Forall_forall in F. apply F in Ha. lia. }
  assert (P : Permutation fs (locals (bsup si b))) by (apply NoDup_Permutation; [assumption..|]; intros; rewrite Hf, Hl; reflexivity).
  destruct (C03_entries BIG si rho (locals (bsup si b)) fs b Hs N Hne SL P) as (M & E & Dm & G).
  - intros q H. apply Hl. exact H.
  - apply diag_t_ok. exact D.
  - pose proof (C86_same_as_dense si rho values b qs full D Hne Hv) as K. unfold block_to_tensor in K. rewrite E in K.
    destruct K as (v & s & E1 & E2 & S1 & S2 & K). rewrite Dm, <- (Permutation_length P) in S1, S2. rewrite <- (Permutation_length P) in G.
    exists v, s. split; [exact E1|]. split; [exact E2|]. split; [exact S1|]. split; [exact S2|].
    intros r c Hr Hc. assert (B : forall x, length x = length fs -> (bits_to_nat x < dim M)%nat).
    { intros x Hx. rewrite Dm, <- (Permutation_length P), <- Hx. apply bits_to_nat_lt. }
    destruct (K _ _ (B r Hr) (B r Hr)) as [_ K1]. destruct (K _ _ (B r Hr) (B c Hc)) as [K2 _].
    rewrite Nat.eqb_refl in K1. rewrite <- K1, K2, !G by assumption. split; reflexivity.
Qed.
(** The qubits of Z(1) Z(3) + 2 Z(3) are indexed as qubits 0 and 1. *)
Example C86_witness : let b := BAdd [BKron [BPrim PZ 1; BPrim PZ 3]; BScale (BPrim PZ 3) (ECst 2)] in
  is_diag_pauli b = true /\ (forall q, In q [1%nat; 3%nat] <-> In q (qubits b))
  /\ exists v, b2d (fun s => [ev (fun _ => 0%R) s]) [1%nat; 3%nat] BIG b = Some v /\ size v = 4%nat /\ at_ v 0%nat = 3 /\ at_ v 1%nat = - (3) /\ at_ v 2%nat = 1 /\ at_ v 3%nat = - (1).
Proof.
  cbv zeta. split; [reflexivity|]. split; [cbn; tauto|]. eexists. split; [cbn; reflexivity|]. cbn. split; [reflexivity|].
  repeat split; apply injective_projections; cbn; ring.
Qed.

(** A block that is not made of Z and I is refused. *)
Theorem C86_refused : forall e set_iter qs full values b, is_diag_pauli b = false ->
  block_to_diagonal e set_iter qs full values b = None /\ block_to_sparse e set_iter qs full values b = None.
Proof.
  intros e si qs full values b H. assert (G : forall l, b2d values l e b = None) by (intros l; destruct b; cbn [b2d]; rewrite H; reflexivity).
  unfold block_to_sparse, block_to_diagonal. rewrite !G. split; reflexivity.
Qed.
Example C86_refused_witness : is_diag_pauli (BAdd [BPrim PZ 0; BPrim PX 1]) = false /\ is_diag_pauli (BPrim (PN true) 0) = false.
Proof. split; reflexivity. Qed.

(** * Findings *)
(** The endianness is lost in composite and scaled blocks: the diagonal of kron(Z(0), I(1)) is the same for both. *)
Theorem C86_endianness_refuted : forall values rho si, let b := BKron [BPrim PZ 0; BPrim PI_ 1] in
  exists v M, b2d values [0%nat; 1%nat] LITTLE b = Some v /\ b2t LITTLE rho [0%nat; 1%nat] si b = Some M /\ at_ v 1%nat <> ent M 1 1.
Proof.
  intros values rho si b. eexists. eexists. split; [cbn; reflexivity|]. split; [cbn; reflexivity|]. cbn.
  intros H. apply (f_equal fst) in H. cbn in H. lra.
Qed.
(** The support asked for is ignored: with use_full_support=True the sparse tensor of Z(1) is 2 x 2, the dense one 4 x 4. *)
Theorem C86_support_refuted : forall set_iter values rho,
  exists s M, block_to_sparse BIG set_iter None true values (BPrim PZ 1) = Some s /\ block_to_tensor BIG set_iter true rho (BPrim PZ 1) = Some M
    /\ sp_size s = 2%nat /\ dim M = 4%nat.
Proof. intros si values rho. eexists. eexists. split; [reflexivity|]. split; [reflexivity|]. split; reflexivity. Qed.
(** A batch of values for a parameter is multiplied along the diagonal when it has as many elements as the diagonal (and refused
    otherwise): for x * Z(0) with the values 2 and 5 the result is diag(2, -5). *)
Theorem C86_batch_refuted : forall set_iter, exists v,
  block_to_diagonal BIG set_iter None false (fun _ => [RtoC 2; RtoC 5]) (BScale (BPrim PZ 0) (EVar "x")) = Some v
    /\ size v = 2%nat /\ at_ v 0%nat = 2 /\ at_ v 1%nat = - (5)
    /\ block_to_diagonal BIG set_iter None false (fun _ => [RtoC 2; RtoC 5; RtoC 7]) (BScale (BPrim PZ 0) (EVar "x")) = None.
Proof.
  intros si. eexists. split; [cbn; reflexivity|]. cbn. split; [reflexivity|]. split; [apply injective_projections; cbn; ring|]. split; [apply injective_projections; cbn; ring|reflexivity].
Qed.

Print Assumptions C86_same_as_dense.
Print Assumptions C86_entries.
