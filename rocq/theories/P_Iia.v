(** C25: the identity-initialised ansatz is the identity at its initial parameter values. *)
From Coq Require Import String Reals List Arith Bool Lia Lra FunctionalExtensionality Permutation.
From Coquelicot Require Import Coquelicot.
From Coq Require Import List.
From Verif Require Import S_Ops S_Sets L_Ops M_QubitSupport M_Block S_Den L_Den M_BlockOps M_Tensor M_Transpile L_Support L_Gates P_ChainOps P_Invert P_Fill P_Hea M_Names L_Names M_Hea M_Iia.
Import ListNotations.
Open Scope string_scope.
Open Scope nat_scope.
Open Scope list_scope.

(** * Specification *)
(** Every parameter has the value it was created with. *)
Definition at_initial_values (rho : env) (table : list entry) : Prop := forall x v, In (x, v) table -> rho x = v.
(** Every parameter has one of the values its name was created with. *)
Definition at_some_initial_values (rho : env) (table : list entry) : Prop := forall x, In x (map fst table) -> In (x, rho x) table.

(** * One layer *)
Lemma ang_var rho x : ang rho (EVar x) = rho x.
Proof. reflexivity. Qed.
Lemma ent_inverse rho c t x op : c <> t -> ((match op with E_CNOT | E_CZ => False | _ => True end) -> rho x = 0%R) ->
  seqop (den rho (entangler c t x op)) (den rho (entangler c t x op)) = idop.
Proof.
  intros N H. assert (LD : forall b, qubits b = [t] -> seqop (ctrlop [c] (den rho b)) (ctrlop [c] (den rho b)) = ctrlop [c] (seqop (den rho b) (den rho b))).
  { intros b Hb. apply (ctrl_seq (fun q => In q (qubits b))); [apply den_loc|]. rewrite Hb. intros q [<-|[]] [E|[]]. congruence. }
  assert (R0 : forall r, rho x = 0%R -> den rho (BRot r t (EVar x)) = idop) by (intros r Hx; cbn [den]; rewrite ang_var, Hx; apply rot_id).
  assert (DC : forall b, den rho (BCtrl [c] b) = ctrlop [c] (den rho b) /\ den rho (BPCtrl [c] b) = ctrlop [c] (den rho b)) by (intros b; split; reflexivity).
  destruct op; cbn [entangler]; rewrite ?(proj1 (DC _)), ?(proj2 (DC _)).
  - etransitivity; [apply (LD (BPrim PX t) eq_refl)|]. cbn [den]. rewrite prim_invol by (left; reflexivity). apply ctrl_id.
  - etransitivity; [apply (LD (BPrim PZ t) eq_refl)|]. cbn [den]. rewrite prim_invol by (right; right; left; reflexivity). apply ctrl_id.
  - etransitivity; [apply (LD (BRot RX_ t (EVar x)) eq_refl)|]. rewrite R0 by (apply H; exact I). apply ctrl_id.
  - etransitivity; [apply (LD (BRot RY_ t (EVar x)) eq_refl)|]. rewrite R0 by (apply H; exact I). apply ctrl_id.
  - etransitivity; [apply (LD (BRot RZ_ t (EVar x)) eq_refl)|]. rewrite R0 by (apply H; exact I). apply ctrl_id.
  - etransitivity; [apply (LD (BRot RPhase t (EVar x)) eq_refl)|]. rewrite R0 by (apply H; exact I). apply ctrl_id.
Qed.
Lemma left_ents_inverse rho n layer prefix ent : (match ent with Digital _ true => n <> 1 | _ => True end) ->
  at_initial_values rho (flat_map snd (left_entanglers n layer prefix ent)) ->
  Forall2 (fun A B => seqop A B = idop) (map (den rho) (map fst (left_entanglers n layer prefix ent))) (map (den rho) (map fst (left_entanglers n layer prefix ent))).
Proof.
  intros HN HA. assert (K : forall l, (forall p, In p l -> seqop (den rho (fst p)) (den rho (fst p)) = idop) ->
      Forall2 (fun A B => seqop A B = idop) (map (den rho) (map fst l)) (map (den rho) (map (@fst block (list entry)) l))).
  { induction l as [|p l IH]; intros H; simpl; constructor; [apply H; left; reflexivity|apply IH; intros q Hq; apply H; right; exact Hq]. }
  apply K. intros p Hp. unfold at_initial_values in HA. setoid_rewrite in_flat_map in HA.
  assert (HZ : forall e, In e (snd p) -> rho (fst e) = snd e) by (intros [x v] He; apply HA; exists p; auto).
  destruct ent as [op [|]|gen]; simpl in Hp.
  - apply in_map_iff in Hp as (q & <- & Hq). apply in_seq in Hq. apply ent_inverse.
    + destruct (Nat.eq_dec (q + 1) n) as [e|e]; [rewrite e, Nat.mod_same by lia; lia|rewrite Nat.mod_small by lia; lia].
    + intros Ho. destruct op; try destruct Ho; cbn [iia_entangler snd] in HZ; eapply (HZ (_, _)); left; reflexivity.
  - apply in_map_iff in Hp as (q & <- & Hq). apply ent_inverse; [lia|].
    intros Ho. destruct op; try destruct Ho; cbn [iia_entangler snd] in HZ; eapply (HZ (_, _)); left; reflexivity.
  - destruct Hp as [<-|[]]. cbn [iia_entangler_analog fst]. rewrite evo_0; [reflexivity|]. rewrite ang_var. eapply (HZ (_, _)). left. reflexivity.
Qed.
Section Layer.
  Variable si : list nat -> list nat.
  Hypothesis Hs : set_order si.
  Definition kgates (n layer : nat) (ps : string) (idx : nat) (g : rot) : list block :=
    map (fun q => BRot g q (EVar (ps ++ "_" ++ dec layer ++ dec (q + n * idx))%string)) (seq 0 n).
  Lemma iia_gates_fst n layer ps v idx g : map fst (iia_gates n layer ps v idx g) = kgates n layer ps idx g.
  Proof. unfold iia_gates, kgates. rewrite map_map. reflexivity. Qed.
  Definition ktable (n layer : nat) (ps : string) (v : nat -> R) (idx : nat) : list entry :=
    map (fun q => ((ps ++ "_" ++ dec layer ++ dec (q + n * idx))%string, v (q + n * idx))) (seq 0 n).
  Lemma iia_gates_snd n layer ps v idx g : map snd (iia_gates n layer ps v idx g) = ktable n layer ps v idx.
  Proof. unfold iia_gates, ktable. rewrite map_map. reflexivity. Qed.
  Lemma kgates_disjoint n layer ps idx g : ForallOrdPairs disjoint_blocks (kgates n layer ps idx g).
  Proof.
    unfold kgates. apply ordpairs_map. apply ordpairs; [apply seq_NoDup|]. intros x y _ _ Ne q. simpl. intros [<-|[]] [E|[]]. congruence.
  Qed.
  Lemma kgates_kron n layer ps idx g : 0 < n -> mk_kron si (kgates n layer ps idx g) = Some (BKron (kgates n layer ps idx g)).
  Proof. intros H. apply (proj1 (mk_kron_spec si Hs _)). split; [destruct n; [lia|discriminate]|apply kgates_disjoint]. Qed.
  Lemma iia_krons_def n layer ps v ops : 0 < n ->
    iia_krons si n layer ps v ops = Some (map (fun p => BKron (kgates n layer ps (fst p) (snd p))) ops, flat_map (fun p => ktable n layer ps v (fst p)) ops).
  Proof.
    intros H. induction ops as [|[idx g] ops IH]; [reflexivity|]. cbn [iia_krons]. rewrite iia_gates_fst, kgates_kron by exact H. cbn [obind]. rewrite IH. cbn [obind fst snd map flat_map]. rewrite iia_gates_snd. reflexivity.
  Qed.
  Lemma right_left ops : right_ops ops = rev (left_ops ops).
  Proof.
    unfold right_ops, left_ops. replace (map (fun x => length ops - x - 1) (seq 0 (length ops))) with (rev (seq 0 (length ops))).
    - generalize (seq_length (length ops) 0). generalize (seq 0 (length ops)) as l. intros l. revert ops. induction l as [|a l IH]; intros [|o ops] H; try discriminate; [reflexivity|].
      simpl. rewrite <- IH by (simpl in H; lia). assert (LE : length (rev l) = length (rev ops)) by (rewrite !rev_length; simpl in H; lia).
      revert LE. generalize (rev l) as x, (rev ops) as y. induction x as [|c x IHx]; intros [|d y] LE; try discriminate; [reflexivity|]. simpl. f_equal. apply IHx. simpl in LE. lia.
    - rewrite <- P_Invert.map_sub_seq. apply map_ext. intros x. lia.
  Qed.
  Lemma seqs_dl rho l : seqs (map (den rho) l) = dl rho l.
  Proof. induction l as [|b l IH]; [reflexivity|]. cbn [map seqs]. rewrite IH. symmetry. apply dl_cons. Qed.
  Lemma krons_inverse rho n layer ps ps' idx g :
    (forall q, q < n -> rho (ps' ++ "_" ++ dec layer ++ dec (q + n * idx))%string = (- rho (ps ++ "_" ++ dec layer ++ dec (q + n * idx))%string)%R) ->
    seqop (den rho (BKron (kgates n layer ps idx g))) (den rho (BKron (kgates n layer ps' idx g))) = idop.
  Proof.
    intros H. rewrite !P_ChainOps.den_kron. rewrite (kron_perm rho (kgates n layer ps' idx g) (rev (kgates n layer ps' idx g)) (Permutation_rev _) (kgates_disjoint _ _ _ _ _)).
    rewrite <- !seqs_dl, map_rev. rewrite <- (seqop_id_l (seqs (rev _))). apply seqs_palindrome; [reflexivity|]. unfold kgates. rewrite !map_map.
    assert (K : forall l, (forall q, In q l -> q < n) -> Forall2 (fun A B => seqop A B = idop)
      (map (fun q => den rho (BRot g q (EVar (ps ++ "_" ++ dec layer ++ dec (q + n * idx))%string))) l)
      (map (fun q => den rho (BRot g q (EVar (ps' ++ "_" ++ dec layer ++ dec (q + n * idx))%string))) l)).
    { induction l as [|q l IH]; intros Hl; cbn [map]; constructor.
      - cbn [den]. rewrite !ang_var, H by (apply Hl; left; reflexivity). apply rot_inv.
      - apply IH. intros y Hy. apply Hl. right. exact Hy. }
    apply K. intros q Hq. apply in_seq in Hq. lia.
  Qed.
  Lemma centre_fst n layer prefix : map fst (centre_gates n layer prefix) = map (fun q => BRot RX_ q (EVar (prefix ++ "_γ" ++ "_" ++ dec layer ++ dec q)%string)) (seq 0 n).
  Proof. unfold centre_gates. rewrite map_map. reflexivity. Qed.
  Lemma centre_def n layer prefix : 0 < n -> mk_kron si (map fst (centre_gates n layer prefix)) = Some (BKron (map fst (centre_gates n layer prefix))).
  Proof.
    intros H. apply (proj1 (mk_kron_spec si Hs _)). rewrite centre_fst. split; [destruct n; [lia|discriminate]|]. apply ordpairs_map. apply ordpairs; [apply seq_NoDup|]. intros x y _ _ Ne q. simpl. intros [<-|[]] [E|[]]. congruence.
  Qed.
  Lemma centre_id rho n layer prefix : at_initial_values rho (map snd (centre_gates n layer prefix)) -> den rho (BKron (map fst (centre_gates n layer prefix))) = idop.
  Proof.
    intros H. rewrite P_ChainOps.den_kron. apply dl_ids. intros b Hb. rewrite centre_fst in Hb. apply in_map_iff in Hb as (q & <- & Hq). cbn [den]. rewrite ang_var.
    rewrite (H (prefix ++ "_γ" ++ "_" ++ dec layer ++ dec q)%string 0%R); [apply rot_id|]. unfold centre_gates. rewrite map_map. apply in_map_iff. exists q. auto.
  Qed.
  (** The layer, with the inner part the identity, is the left rotations followed by the right ones. *)
  Lemma layer_inner rho n layer prefix ent ops v b t : 0 < n -> (match ent with Digital _ true => n <> 1 | _ => True end) -> iia_layer si n layer prefix ent ops v = Some (b, t) ->
    at_initial_values rho (flat_map snd (left_entanglers n layer prefix ent) ++ map snd (centre_gates n layer prefix)) ->
    den rho b = seqop (seqs (map (fun p => den rho (BKron (kgates n layer (prefix ++ "_α")%string (fst p) (snd p)))) (left_ops ops)))
                      (seqs (rev (map (fun p => den rho (BKron (kgates n layer (prefix ++ "_β")%string (fst p) (snd p)))) (left_ops ops)))).
  Proof.
    intros Hn HP H HA. unfold iia_layer in H. rewrite !iia_krons_def, centre_def in H by exact Hn. cbn [obind fst snd] in H. injection H as <- _.
    rewrite P_ChainOps.den_chain, <- seqs_dl. rewrite !map_app, !seqs_app. rewrite right_left, !map_rev, !map_map.
    assert (A1 : at_initial_values rho (flat_map snd (left_entanglers n layer prefix ent))) by (intros x y Hxy; apply HA, in_or_app; left; exact Hxy).
    assert (A2 : at_initial_values rho (map snd (centre_gates n layer prefix))) by (intros x y Hxy; apply HA, in_or_app; right; exact Hxy).
    f_equal. cbn [map seqs]. rewrite centre_id by exact A2. rewrite seqop_id_l. rewrite map_app, seqs_app, !map_rev, !map_map. rewrite <- seqop_assoc.
    pose proof (seqs_palindrome _ _ idop eq_refl (left_ents_inverse rho n layer prefix ent HP A1)) as PP. rewrite seqop_id_l in PP. rewrite !map_map in PP.
    rewrite P_ChainOps.den_chain, <- seqs_dl, !map_map. rewrite PP. apply seqop_id_l.
  Qed.
  Lemma layer_table n layer prefix ent ops v b t : 0 < n -> iia_layer si n layer prefix ent ops v = Some (b, t) ->
    t = flat_map (fun p => ktable n layer (prefix ++ "_α")%string v (fst p)) (left_ops ops) ++ flat_map snd (left_entanglers n layer prefix ent) ++ map snd (centre_gates n layer prefix) ++
        flat_map (fun p => ktable n layer (prefix ++ "_β")%string (fun i => - v i)%R (fst p)) (rev (left_ops ops)).
  Proof.
    intros Hn H. unfold iia_layer in H. rewrite !iia_krons_def, centre_def in H by exact Hn. cbn [obind fst snd] in H. injection H as _ <-. rewrite right_left. reflexivity.
  Qed.
  Lemma layer_id rho n layer prefix ent ops v b t : 0 < n -> (match ent with Digital _ true => n <> 1 | _ => True end) -> iia_layer si n layer prefix ent ops v = Some (b, t) ->
    at_initial_values rho t -> den rho b = idop.
  Proof.
    intros Hn HP H HA. rewrite (layer_table _ _ _ _ _ _ _ _ Hn H) in HA.
    rewrite (layer_inner rho n layer prefix ent ops v b t Hn HP H) by (intros x y Hxy; apply HA; rewrite !in_app_iff; apply in_app_iff in Hxy; tauto).
    rewrite <- (seqop_id_l (seqs (rev _))). apply seqs_palindrome; [reflexivity|].
    assert (K : forall l, (forall p, In p l -> In p (left_ops ops)) -> Forall2 (fun A B => seqop A B = idop)
       (map (fun p => den rho (BKron (kgates n layer (prefix ++ "_α")%string (fst p) (snd p)))) l) (map (fun p => den rho (BKron (kgates n layer (prefix ++ "_β")%string (fst p) (snd p)))) l)).
    { induction l as [|p l IH]; intros Hl; cbn [map]; constructor; [|apply IH; intros x Hx; apply Hl; right; exact Hx].
      apply krons_inverse. intros q Hq. specialize (Hl p (or_introl eq_refl)).
      rewrite (HA ((prefix ++ "_α") ++ "_" ++ dec layer ++ dec (q + n * fst p))%string (v (q + n * fst p))).
      - apply (HA _ (Ropp (v (q + n * fst p)))). rewrite !in_app_iff. right. right. right. apply in_flat_map. exists p. split; [apply in_rev; rewrite rev_involutive; exact Hl|].
        unfold ktable. apply in_map_iff. exists q. split; [reflexivity|apply in_seq; lia].
      - apply in_app_iff. left. apply in_flat_map. exists p. split; [exact Hl|]. unfold ktable. apply in_map_iff. exists q. split; [reflexivity|apply in_seq; lia]. }
    apply K. auto.
  Qed.
  Lemma layer_none n layer prefix ent ops v : n = 0 -> iia_layer si n layer prefix ent ops v = None.
  Proof.
    intros ->. unfold iia_layer. destruct (iia_krons si 0 layer (prefix ++ "_α") v (left_ops ops)); reflexivity.
  Qed.
End Layer.

(** The ansatz is the identity whenever every parameter has its initial value, whatever the random numbers [alpha] were.
    A ring on a single qubit would control a qubit by itself and is excluded. *)
Theorem C25_identity : forall si n depth prefix ent ops alpha b table, set_order si ->
  (match ent with Digital _ true => n <> 1 | _ => True end) ->
  iia si n depth prefix ent ops alpha = Some (b, table) ->
  forall rho, at_initial_values rho table -> den rho b = idop.
Proof.
  intros si n depth prefix ent ops alpha b table Hs HP H rho HA. unfold iia in H.
  destruct (osequence _) as [ls|] eqn:E; [|discriminate]. cbn [obind] in H. injection H as <- <-. apply osequence_map_some in E.
  rewrite P_ChainOps.den_chain. apply dl_ids. intros b Hb. apply in_map_iff in Hb as ([b' t] & <- & Hin). cbn [fst].
  assert (HT : at_initial_values rho t) by (intros x v Hxv; apply HA; apply in_flat_map; exists (b', t); auto).
  assert (HL : exists layer, iia_layer si n layer prefix ent ops (alpha layer) = Some (b', t)).
  { clear HA. revert Hin. induction E as [|layer y l ys Hy E IH]; intros Hin; [destruct Hin|]. destruct Hin as [->|Hin]; [exists layer; exact Hy|apply IH, Hin]. }
  destruct HL as [layer HL]. destruct (Nat.eq_dec n 0) as [Z|Z]; [rewrite (layer_none si n layer prefix ent ops _ Z) in HL; discriminate|].
  apply (layer_id si Hs rho n layer prefix ent ops (alpha layer) b' t); [lia|exact HP|exact HL|exact HT].
Qed.
(** It is constructed for every positive number of qubits. *)
Lemma Forall2_length' {A B} (P : A -> B -> Prop) l l' : Forall2 P l l' -> length l = length l'.
Proof. induction 1; cbn; congruence. Qed.
(** Which gates a layer consists of: for each operation in turn a kron of it over all qubits, then the entanglers on neighbouring qubits (between the
    last and the first only if periodic), a kron of RX gates, the same entanglers backwards, and the operations backwards. *)
Theorem C25_layers : forall si n depth prefix op periodic ops alpha b table, set_order si -> 0 < depth ->
  iia si n depth prefix (Digital op periodic) ops alpha = Some (b, table) ->
  exists layers, b = BChain layers /\ length layers = depth /\ forall l, In l layers -> exists before ents centre after,
    l = BChain (before ++ [BChain ents] ++ [BKron centre] ++ rev ents ++ after) /\
    (forall k r, nth_error ops k = Some r -> exists gs, nth_error before k = Some (BKron gs) /\ length gs = n /\ forall q, q < n -> exists x, nth_error gs q = Some (BRot r q (EVar x))) /\ length before = length ops /\
    (forall k r, nth_error (rev ops) k = Some r -> exists gs, nth_error after k = Some (BKron gs) /\ length gs = n /\ forall q, q < n -> exists x, nth_error gs q = Some (BRot r q (EVar x))) /\ length after = length ops /\
    length ents = (if periodic then n else n - 1) /\ (forall q, q < length ents -> exists x, nth_error ents q = Some (entangler q (if Nat.eqb (q + 1) n then 0 else q + 1) x op)) /\
    length centre = n /\ (forall q, q < n -> exists x, nth_error centre q = Some (BRot RX_ q (EVar x))).
Proof.
  intros si n depth prefix op periodic ops alpha b table Hs Hd H. assert (Hn : 0 < n). { destruct n; [|lia]. exfalso. unfold iia in H. destruct depth as [|d]; [lia|]. cbn [seq map osequence] in H. rewrite layer_none in H by reflexivity. discriminate. }
  unfold iia in H. destruct (osequence _) as [ls|] eqn:E; [|discriminate]. cbn [obind] in H. injection H as <- _. apply osequence_map_some in E. exists (map fst ls). split; [reflexivity|].
  split; [rewrite map_length, <- (Forall2_length' _ _ _ E); apply seq_length|]. intros l Hl. apply in_map_iff in Hl as ([l' t] & Q & Hl). cbn [fst] in Q. subst l'.
  assert (X : exists layer, iia_layer si n layer prefix (Digital op periodic) ops (alpha layer) = Some (l, t)).
  { clear - E Hl. induction E as [|x y xs ys E1 E IH]; [destruct Hl|]. destruct Hl as [->|Hl]; [exists x; exact E1|apply IH, Hl]. }
  destruct X as [layer X]. unfold iia_layer in X. rewrite !(iia_krons_def si Hs), (centre_def si Hs) in X by assumption. cbn [obind fst snd] in X. injection X as <- _. rewrite centre_fst.
  assert (G : forall ps idx r, length (kgates n layer ps idx r) = n /\ forall q, q < n -> exists x, nth_error (kgates n layer ps idx r) q = Some (BRot r q (EVar x))).
  { intros ps idx r. unfold kgates. split; [rewrite map_length; apply seq_length|]. intros q Hq. rewrite nth_error_map, (nth_error_nth' (seq 0 n) 0), seq_nth by (rewrite ?seq_length; lia). eexists. reflexivity. }
  assert (L : forall l' k r, length (map fst l') = length l' -> nth_error (map snd l') k = Some r -> exists gs, nth_error (map (fun p => BKron (kgates n layer (prefix ++ "_α")%string (fst p) (snd p))) l') k = Some (BKron gs) /\ length gs = n /\ forall q, q < n -> exists x, nth_error gs q = Some (BRot r q (EVar x))).
  { intros l' k r _ K. rewrite nth_error_map in K |- *. destruct (nth_error l' k) as [[i r']|]; [|discriminate]. injection K as <-. eexists. split; [reflexivity|]. apply G. }
  assert (L' : forall l' k r, nth_error (map snd l') k = Some r -> exists gs, nth_error (map (fun p => BKron (kgates n layer (prefix ++ "_β")%string (fst p) (snd p))) l') k = Some (BKron gs) /\ length gs = n /\ forall q, q < n -> exists x, nth_error gs q = Some (BRot r q (EVar x))).
  { intros l' k r K. rewrite nth_error_map in K |- *. destruct (nth_error l' k) as [[i r']|]; [|discriminate]. injection K as <-. eexists. split; [reflexivity|]. apply G. }
  assert (Hlen0 : forall (o : list rot) (s : list nat), length s = length o -> map snd (combine s o) = o) by (clear; induction o as [|r o IH]; intros [|a s] Q; try discriminate Q; [reflexivity|]; cbn; f_equal; apply IH; cbn in Q; lia).
  assert (Hlen1 : map snd (left_ops ops) = ops) by (apply Hlen0, seq_length). clear Hlen0.
  do 4 eexists. split; [reflexivity|]. split; [intros k r K; apply L; [apply map_length|rewrite Hlen1; exact K]|]. split; [rewrite map_length; rewrite <- Hlen1 at 2; symmetry; apply map_length|].
  split; [intros k r K; apply L'; rewrite right_left, map_rev, Hlen1; exact K|]. split; [rewrite map_length, right_left, rev_length; rewrite <- Hlen1 at 2; symmetry; apply map_length|].
  destruct periodic; cbn [left_entanglers]; rewrite !map_length, !seq_length.
  - split; [reflexivity|]. split.
    + intros q Hq. rewrite !nth_error_map, (nth_error_nth' (seq 0 n) 0), seq_nth by (rewrite ?seq_length; lia). replace (if Nat.eqb (q + 1) n then 0 else q + 1) with ((q + 1) mod n) by (destruct (Nat.eqb_spec (q + 1) n) as [->|N]; [apply Nat.mod_same; lia|apply Nat.mod_small; lia]). eexists. reflexivity.
    + split; [reflexivity|]. intros q Hq. rewrite nth_error_map, (nth_error_nth' (seq 0 n) 0), seq_nth by (rewrite ?seq_length; lia). eexists. reflexivity.
  - split; [reflexivity|]. split.
    + intros q Hq. rewrite !nth_error_map, (nth_error_nth' (seq 0 (n - 1)) 0), seq_nth by (rewrite ?seq_length; lia). replace (if Nat.eqb (q + 1) n then 0 else q + 1) with (q + 1) by (destruct (Nat.eqb_spec (q + 1) n); lia). eexists. reflexivity.
    + split; [reflexivity|]. intros q Hq. rewrite nth_error_map, (nth_error_nth' (seq 0 n) 0), seq_nth by (rewrite ?seq_length; lia). eexists. reflexivity.
Qed.
Theorem C25_defined : forall si n depth prefix ent ops alpha, set_order si -> 0 < depth ->
  ((exists r, iia si n depth prefix ent ops alpha = Some r) <-> 0 < n).
Proof.
  intros si n depth prefix ent ops alpha Hs Hd. split.
  - intros [r H]. destruct n as [|n]; [|lia]. unfold iia in H. destruct depth as [|d]; [lia|]. cbn [seq map osequence] in H. rewrite layer_none in H by reflexivity. discriminate.
  - intros Hn. unfold iia. enough (X : exists ls, osequence (map (fun layer => iia_layer si n layer prefix ent ops (alpha layer)) (seq 0 depth)) = Some ls) by (destruct X as [ls ->]; eexists; reflexivity).
    induction (seq 0 depth) as [|l s [ls IH]]; [exists []; reflexivity|]. cbn [map osequence]. unfold iia_layer at 1. rewrite !iia_krons_def, centre_def by assumption. cbn [obind]. rewrite IH. eexists. reflexivity.
Qed.

(** * The initial values are not contradictory for up to eleven layers, or for up to ten rotations on a side of a layer *)
Lemma in_ktable n layer ps v idx x y : In (x, y) (ktable n layer ps v idx) -> exists i, i < n * S idx /\ x = (ps ++ "_" ++ dec layer ++ dec i)%string /\ y = v i.
Proof. unfold ktable. intros H. apply in_map_iff in H as (q & E & Hq). apply in_seq in Hq. injection E as <- <-. exists (q + n * idx). split; [nia|auto]. Qed.
Lemma left_ops_idx ops p : In p (left_ops ops) -> fst p < length ops.
Proof. destruct p as [i o]. intros H. apply in_combine_l in H. apply in_seq in H. simpl. lia. Qed.
Inductive origin : Type := OA (layer i : nat) | OB (layer i : nat) | OZ.
Definition named (prefix x : string) (o : origin) : Prop :=
  match o with
  | OA l i => x = (prefix ++ "_α" ++ "_" ++ dec l ++ dec i)%string
  | OB l i => x = (prefix ++ "_β" ++ "_" ++ dec l ++ dec i)%string
  | OZ => exists y, x = (prefix ++ "_θ_ent_" ++ y)%string \/ x = (prefix ++ "_ent_t" ++ y)%string \/ x = (prefix ++ "_γ" ++ y)%string
  end.
Definition valued (alpha : nat -> nat -> R) (v : R) (o : origin) : Prop := match o with OA l i => v = alpha l i | OB l i => v = (- alpha l i)%R | OZ => v = 0%R end.
Lemma layer_origin si n layer prefix ent ops alpha b t x v : set_order si -> 0 < n -> iia_layer si n layer prefix ent ops (alpha layer) = Some (b, t) -> In (x, v) t ->
  exists o, named prefix x o /\ valued alpha v o /\ match o with OA l i | OB l i => l = layer /\ i < n * length ops | OZ => True end.
Proof.
  intros Hs Hn H Hin. rewrite (layer_table si Hs _ _ _ _ _ _ _ _ Hn H), !in_app_iff in Hin. destruct Hin as [Hin|[Hin|[Hin|Hin]]].
  - apply in_flat_map in Hin as (p & Hp & Hin). apply left_ops_idx in Hp. apply in_ktable in Hin as (i & Hi & -> & ->). exists (OA layer i). split; [simpl; apply append_assoc|]. split; [reflexivity|]. split; [reflexivity|nia].
  - exists OZ. apply in_flat_map in Hin as (p & Hp & Hin). split; [|split; [|exact I]].
    + destruct ent as [op [|]|gen]; simpl in Hp.
      * apply in_map_iff in Hp as (q & <- & _). exists ("_" ++ dec layer ++ dec q)%string. left. destruct op; simpl in Hin; try (destruct Hin; fail); destruct Hin as [E|[]]; injection E as <- _; reflexivity.
      * apply in_map_iff in Hp as (q & <- & _). exists ("_" ++ dec layer ++ dec q)%string. left. destruct op; simpl in Hin; try (destruct Hin; fail); destruct Hin as [E|[]]; injection E as <- _; reflexivity.
      * destruct Hp as [<-|[]]. destruct Hin as [E|[]]. injection E as <- _. exists ("_" ++ dec layer)%string. right. left. reflexivity.
    + destruct ent as [op [|]|gen]; simpl in Hp.
      * apply in_map_iff in Hp as (q & <- & _). destruct op; simpl in Hin; try (destruct Hin; fail); destruct Hin as [E|[]]; injection E as _ <-; reflexivity.
      * apply in_map_iff in Hp as (q & <- & _). destruct op; simpl in Hin; try (destruct Hin; fail); destruct Hin as [E|[]]; injection E as _ <-; reflexivity.
      * destruct Hp as [<-|[]]. destruct Hin as [E|[]]. injection E as _ <-. reflexivity.
  - exists OZ. unfold centre_gates in Hin. rewrite map_map in Hin. apply in_map_iff in Hin as (q & E & _). injection E as <- <-. split; [|split; [reflexivity|exact I]]. exists ("_" ++ dec layer ++ dec q)%string. right. right. reflexivity.
  - apply in_flat_map in Hin as (p & Hp & Hin). apply in_rev in Hp. apply left_ops_idx in Hp. apply in_ktable in Hin as (i & Hi & -> & ->). exists (OB layer i). split; [simpl; apply append_assoc|]. split; [reflexivity|]. split; [reflexivity|nia].
Qed.
Lemma iia_origin si n depth prefix ent ops alpha b t x v : set_order si -> iia si n depth prefix ent ops alpha = Some (b, t) -> In (x, v) t ->
  exists o, named prefix x o /\ valued alpha v o /\ match o with OA l i | OB l i => l < depth /\ i < n * length ops | OZ => True end.
Proof.
  intros Hs H Hin. unfold iia in H. destruct (osequence _) as [ls|] eqn:E; [|discriminate]. cbn [obind] in H. injection H as <- <-. apply osequence_map_some in E.
  apply in_flat_map in Hin as ([b' t'] & HI & Hin). cbn [snd] in Hin.
  assert (HL : exists layer, layer < depth /\ iia_layer si n layer prefix ent ops (alpha layer) = Some (b', t')).
  { assert (B : forall l, In l (seq 0 depth) -> l < depth) by (intros l Hl; apply in_seq in Hl; lia). revert HI B. clear Hin. induction E as [|layer y l ys Hy E IH]; intros HI B; [destruct HI|].
    destruct HI as [->|HI]; [exists layer; split; [apply B; left; reflexivity|exact Hy]|apply IH; [exact HI|intros z Hz; apply B; right; exact Hz]]. }
  destruct HL as (layer & HD & HL). destruct (Nat.eq_dec n 0) as [Z|Z]; [rewrite (layer_none si n layer prefix ent ops _ Z) in HL; discriminate|].
  destruct (layer_origin si n layer prefix ent ops alpha b' t' x v Hs ltac:(lia) HL Hin) as (o & O1 & O2 & O3). exists o. split; [exact O1|]. split; [exact O2|]. destruct o; [| |exact I]; destruct O3 as [-> O3]; auto.
Qed.
Lemma origin_unique prefix x o o' : named prefix x o -> named prefix x o' ->
  match o, o' with OA l i, OA l' i' | OB l i, OB l' i' => (dec l ++ dec i = dec l' ++ dec i')%string | OZ, OZ => True | _, _ => False end.
Proof.
  destruct o as [l i|l i|], o' as [l' i'|l' i'|]; simpl; intros H H'; try exact I.
  - rewrite H in H'. apply append_inj in H'. simpl in H'. injection H' as H'. exact H'.
  - rewrite H in H'. apply append_inj in H'. discriminate H'.
  - destruct H' as [y [H'|[H'|H']]]; rewrite H in H'; apply append_inj in H'; discriminate H'.
  - rewrite H in H'. apply append_inj in H'. discriminate H'.
  - rewrite H in H'. apply append_inj in H'. simpl in H'. injection H' as H'. exact H'.
  - destruct H' as [y [H'|[H'|H']]]; rewrite H in H'; apply append_inj in H'; discriminate H'.
  - destruct H as [y [H|[H|H]]]; rewrite H' in H; apply append_inj in H; discriminate H.
  - destruct H as [y [H|[H|H]]]; rewrite H' in H; apply append_inj in H; discriminate H.
Qed.
Theorem C25_consistent : forall si n depth prefix ent ops alpha b table, set_order si ->
  iia si n depth prefix ent ops alpha = Some (b, table) -> depth <= 11 \/ n * length ops <= 10 ->
  (forall x v v', In (x, v) table -> In (x, v') table -> v = v') /\ exists rho, at_initial_values rho table.
Proof.
  intros si n depth prefix ent ops alpha b table Hs H HD.
  assert (U : forall x v v', In (x, v) table -> In (x, v') table -> v = v').
  { intros x v v' H1 H2. destruct (iia_origin _ _ _ _ _ _ _ _ _ _ _ Hs H H1) as (o & A1 & A2 & A3). destruct (iia_origin _ _ _ _ _ _ _ _ _ _ _ Hs H H2) as (o' & B1 & B2 & B3).
    pose proof (origin_unique _ _ _ _ A1 B1) as Q.
    assert (K : forall l i l' i', l < depth /\ i < n * length ops -> l' < depth /\ i' < n * length ops -> (dec l ++ dec i = dec l' ++ dec i')%string -> l = l' /\ i = i').
    { intros l i l' i' [P1 P2] [P3 P4] E. destruct HD as [HD|HD]; [apply dec_two_digits; [lia|lia|exact E]|apply dec_one_digit; [lia|lia|exact E]]. }
    destruct o as [l i|l i|], o' as [l' i'|l' i'|]; try contradiction; simpl in A2, B2; [destruct (K _ _ _ _ A3 B3 Q) as [-> ->]; congruence|destruct (K _ _ _ _ A3 B3 Q) as [-> ->]; congruence|congruence]. }
  split; [exact U|]. exists (fun x => match find (fun e => String.eqb (fst e) x) table with Some e => snd e | None => 0%R end).
  intros x v Hin. destruct (find (fun e => String.eqb (fst e) x) table) as [[y w]|] eqn:F.
  - apply find_some in F as [F1 F2]. simpl in F2. apply String.eqb_eq in F2 as ->. apply (U x w v F1 Hin).
  - pose proof (find_none _ _ F (x, v) Hin) as Q. simpl in Q. rewrite String.eqb_refl in Q. discriminate Q.
Qed.

(** * With more layers and rotations two parameters share a name, and the ansatz is not the identity *)
Definition clash_alpha (l i : nat) : R := if (Nat.eqb l 11 && Nat.eqb i 0)%bool then PI else 0%R.
Definition clash_rho : env := fun x => if String.eqb x "iia_α_110" then PI else 0%R.
Lemma ktable_in n layer ps v i : i < n -> In ((ps ++ "_" ++ dec layer ++ dec i)%string, v i) (ktable n layer ps v 0).
Proof. intros H. unfold ktable. apply in_map_iff. exists i. rewrite Nat.mul_0_r, Nat.add_0_r. split; [reflexivity|apply in_seq; lia]. Qed.
Lemma iia_layers si n depth prefix ent ops alpha b t : iia si n depth prefix ent ops alpha = Some (b, t) ->
  exists ls, b = BChain (map fst ls) /\ t = flat_map snd ls /\ Forall2 (fun l p => iia_layer si n l prefix ent ops (alpha l) = Some p) (seq 0 depth) ls.
Proof.
  intros H. unfold iia in H. destruct (osequence _) as [ls|] eqn:E; [|discriminate]. cbn [obind] in H. injection H as <- <-. apply osequence_map_some in E. exists ls. auto.
Qed.
Lemma clash_values si b t : set_order si -> iia si 11 12 "iia" (Digital E_CNOT false) [RX_] clash_alpha = Some (b, t) -> at_some_initial_values clash_rho t.
Proof.
  intros Hs H x Hx. apply in_map_iff in Hx as ([y v] & E & Hin). simpl in E. subst y.
  destruct (iia_layers _ _ _ _ _ _ _ _ _ H) as (ls & _ & Ht & F).
  assert (LK : forall l, l < 12 -> exists p, In p ls /\ iia_layer si 11 l "iia" (Digital E_CNOT false) [RX_] (clash_alpha l) = Some p).
  { intros l Hl. assert (IN : In l (seq 0 12)) by (apply in_seq; lia). revert IN. clear - F. induction F as [|a p ll ps Hp F IH]; intros IN; [destruct IN|]. destruct IN as [->|IN]; [exists p; split; [left; reflexivity|exact Hp]|].
    destruct (IH IN) as (p' & P1 & P2). exists p'. split; [right; exact P1|exact P2]. }
  destruct (string_dec x "iia_α_110") as [->|NA].
  - destruct (LK 11 ltac:(lia)) as ([bb tt] & P1 & P2). rewrite Ht. apply in_flat_map. exists (bb, tt). split; [exact P1|]. cbn [snd]. rewrite (layer_table si Hs _ _ _ _ _ _ _ _ (Nat.lt_0_succ 10) P2).
    apply in_app_iff. left. apply in_flat_map. exists (0, RX_). split; [left; reflexivity|]. exact (ktable_in 11 11 "iia_α" (clash_alpha 11) 0 ltac:(lia)).
  - assert (R0 : clash_rho x = 0%R) by (unfold clash_rho; destruct (String.eqb_spec x "iia_α_110"); [contradiction|reflexivity]). rewrite R0.
    destruct (string_dec x "iia_β_110") as [->|NB].
    + destruct (LK 1 ltac:(lia)) as ([bb tt] & P1 & P2). rewrite Ht. apply in_flat_map. exists (bb, tt). split; [exact P1|]. cbn [snd]. rewrite (layer_table si Hs _ _ _ _ _ _ _ _ (Nat.lt_0_succ 10) P2).
      rewrite !in_app_iff. right. right. right. apply in_flat_map. exists (0, RX_). split; [left; reflexivity|]. pose proof (ktable_in 11 1 "iia_β" (fun i => - clash_alpha 1 i)%R 10 ltac:(lia)) as K.
      cbv beta in K. replace (- clash_alpha 1 10)%R with 0%R in K by (unfold clash_alpha; simpl; ring). exact K.
    + destruct (iia_origin _ _ _ _ _ _ _ _ _ _ _ Hs H Hin) as (o & O1 & O2 & _). replace 0%R with v; [exact Hin|]. destruct o as [l i|l i|]; simpl in O1, O2; [| |exact O2].
      * rewrite O2. unfold clash_alpha. destruct (Nat.eqb_spec l 11) as [->|]; [|reflexivity]. destruct (Nat.eqb_spec i 0) as [->|]; [|reflexivity]. exfalso. apply NA. rewrite O1. reflexivity.
      * rewrite O2. unfold clash_alpha. destruct (Nat.eqb_spec l 11) as [->|]; [|simpl; ring]. destruct (Nat.eqb_spec i 0) as [->|]; [|simpl; ring]. exfalso. apply NB. rewrite O1. reflexivity.
Qed.
Definition flip (q : nat) : Op := gate1 q (rot_mat RX_ PI).
Lemma flip_spec q psi x : flip q psi x = (- Ci * psi (upd x q (negb (x q))))%C.
Proof.
  unfold flip, gate1, gate. cbn [length bits map app csum upds of_mat2]. unfold rot_mat. rewrite cos_PI2, sin_PI2. destruct (x q); simpl; apply Ceq; simpl; ring.
Qed.
Lemma kron_one rho n layer ps g q0 : q0 < n -> (forall q, q < n -> q <> q0 -> rho (ps ++ "_" ++ dec layer ++ dec (q + n * 0))%string = 0%R) ->
  den rho (BKron (kgates n layer ps 0 g)) = gate1 q0 (rot_mat g (rho (ps ++ "_" ++ dec layer ++ dec (q0 + n * 0))%string)).
Proof.
  intros H HZ. rewrite P_ChainOps.den_kron. unfold kgates. replace (seq 0 n) with (seq 0 q0 ++ q0 :: seq (S q0) (n - S q0)).
  2:{ change (q0 :: seq (S q0) (n - S q0)) with (seq q0 (S (n - S q0))). rewrite <- seq_app. f_equal. lia. }
  rewrite map_app, dl_app. cbn [map]. rewrite dl_cons. rewrite !dl_ids; [rewrite seqop_id_l, seqop_id_r; reflexivity| |];
    intros b Hb; apply in_map_iff in Hb as (q & <- & Hq); apply in_seq in Hq; cbn [den]; rewrite ang_var, HZ by lia; apply rot_id.
Qed.
Lemma clash_layer si l b t : set_order si -> l < 12 -> iia_layer si 11 l "iia" (Digital E_CNOT false) [RX_] (clash_alpha l) = Some (b, t) ->
  den clash_rho b = if Nat.eqb l 1 then flip 10 else if Nat.eqb l 11 then flip 0 else idop.
Proof.
  intros Hs Hl H. rewrite (layer_inner si Hs clash_rho 11 l "iia" (Digital E_CNOT false) [RX_] (clash_alpha l) b t ltac:(lia) I H).
  2:{ intros x v Hin. apply in_app_iff in Hin as [Hin|Hin]; [destruct Hin|]. unfold centre_gates in Hin. rewrite map_map in Hin. apply in_map_iff in Hin as (q & E & _). injection E as <- <-. reflexivity. }
  cbn [left_ops combine seq length map rev app fst snd seqs]. rewrite !seqop_id_r.
  assert (NB : forall z, clash_rho (("iia" ++ "_β") ++ z)%string = 0%R) by reflexivity.
  assert (B0 : den clash_rho (BKron (kgates 11 l ("iia" ++ "_β") 0 RX_)) = idop) by (rewrite (kron_one _ 11 l _ RX_ 0 ltac:(lia)) by (intros; apply NB); rewrite NB; apply rot_id).
  rewrite B0, seqop_id_r.
  assert (A : forall z, z <> "_110"%string -> clash_rho (("iia" ++ "_α") ++ z)%string = 0%R).
  { intros z Hz. unfold clash_rho. destruct (String.eqb_spec (("iia" ++ "_α") ++ z) "iia_α_110"); [|reflexivity]. exfalso. apply Hz. apply (append_inj ("iia" ++ "_α")). exact e. }
  assert (A' : forall z, (dec l ++ dec z)%string <> "110"%string -> clash_rho (("iia" ++ "_α") ++ "_" ++ dec l ++ dec z)%string = 0%R).
  { intros z Hz. apply A. intros E. apply Hz. injection E as E. exact E. }
  assert (S110 : clash_rho (("iia" ++ "_α") ++ "_" ++ "110")%string = PI) by reflexivity.
  destruct (Nat.eqb_spec l 1) as [->|N1]; [|destruct (Nat.eqb_spec l 11) as [->|N11]].
  - rewrite (kron_one _ 11 1 _ RX_ 10 ltac:(lia)); [reflexivity|]. intros q Hq Ne. apply A'. rewrite Nat.mul_0_r, Nat.add_0_r. intros E. change "110"%string with (dec 1 ++ dec 10)%string in E. apply append_inj, dec_inj in E. contradiction.
  - rewrite (kron_one _ 11 11 _ RX_ 0 ltac:(lia)); [reflexivity|]. intros q Hq Ne. apply A'. rewrite Nat.mul_0_r, Nat.add_0_r. intros E. change "110"%string with (dec 11 ++ dec 0)%string in E. apply append_inj, dec_inj in E. contradiction.
  - assert (Z : forall q, clash_rho (("iia" ++ "_α") ++ "_" ++ dec l ++ dec q)%string = 0%R).
    { intros q. apply A'. intros E. change "110"%string with (dec 1 ++ dec 10)%string in E. apply dec_two_digits in E; [|lia|lia]. destruct E; congruence. }
    rewrite (kron_one _ 11 l _ RX_ 0 ltac:(lia)) by (intros; apply Z). rewrite Z. apply rot_id.
Qed.
(** The set of parameters is unordered, so either of two parameters with the same name may determine the value
    (qadence/blocks/embedding.py:91-92 and 167-169). *)
Theorem C25_name_clash_refuted : exists si n depth prefix ent ops alpha b table rho, set_order si /\
  iia si n depth prefix ent ops alpha = Some (b, table) /\ at_some_initial_values rho table /\ den rho b <> idop.
Proof.
  exists (nodup Nat.eq_dec), 11, 12, "iia"%string, (Digital E_CNOT false), [RX_], clash_alpha.
  assert (Hs : set_order (nodup Nat.eq_dec)) by (intros l; split; [apply NoDup_nodup|intros q; apply nodup_In]).
  destruct (proj2 (C25_defined (nodup Nat.eq_dec) 11 12 "iia" (Digital E_CNOT false) [RX_] clash_alpha Hs ltac:(lia)) ltac:(lia)) as [[b t] H].
  exists b, t, clash_rho. split; [exact Hs|]. split; [exact H|]. split; [apply (clash_values _ _ _ Hs H)|].
  destruct (iia_layers _ _ _ _ _ _ _ _ _ H) as (ls & -> & _ & F).
  assert (E : dl clash_rho (map fst ls) = seqs (map (fun l => if Nat.eqb l 1 then flip 10 else if Nat.eqb l 11 then flip 0 else idop) (seq 0 12))).
  { assert (B : forall l, In l (seq 0 12) -> l < 12) by (intros l Hl; apply in_seq in Hl; lia). revert B. clear H. induction F as [|l [b' t'] ll ps Hp F IH]; intros B; [reflexivity|].
    cbn [map fst seqs]. rewrite dl_cons, (clash_layer _ l b' t' Hs (B l (or_introl eq_refl)) Hp), IH by (intros z Hz; apply B; right; exact Hz). reflexivity. }
  rewrite P_ChainOps.den_chain, E. cbn [seq map Nat.eqb seqs]. rewrite ?seqop_id_l, ?seqop_id_r. intros Q.
  apply (f_equal (fun A : Op => A (fun x => if x 0 then RtoC 1 else RtoC 0) (fun _ => false))) in Q. unfold idop, seqop in Q. rewrite !flip_spec in Q. cbn in Q. injection Q as Q _. lra.
Qed.
Example C25_case : exists b table rho, iia (nodup Nat.eq_dec) 3 2 "iia" (Digital E_CRZ true) [RX_; RY_] (fun l i => INR (l + i)) = Some (b, table) /\ at_initial_values rho table /\ rho "iia_α_14"%string = 5%R.
Proof.
  assert (Hs : set_order (nodup Nat.eq_dec)) by (intros l; split; [apply NoDup_nodup|intros q; apply nodup_In]).
  destruct (proj2 (C25_defined (nodup Nat.eq_dec) 3 2 "iia" (Digital E_CRZ true) [RX_; RY_] (fun l i => INR (l + i)) Hs ltac:(lia)) ltac:(lia)) as [[b t] H].
  assert (D : 2 <= 11) by lia. destruct (C25_consistent _ _ _ _ _ _ _ _ _ Hs H (or_introl D)) as [_ [rho Hr]]. exists b, t, rho. split; [exact H|]. split; [exact Hr|].
  destruct (iia_layers _ _ _ _ _ _ _ _ _ H) as (ls & _ & -> & F). inversion F as [|? ? ? ? _ F1]; subst. inversion F1 as [|? [b1 t1] ? ? F2 _]; subst.
  rewrite (Hr "iia_α_14"%string (INR (1 + 4))); [simpl; ring|]. apply in_flat_map. exists (b1, t1). split; [right; left; reflexivity|]. cbn [snd]. rewrite (layer_table _ Hs _ _ _ _ _ _ _ _ (Nat.lt_0_succ 2) F2).
  apply in_app_iff. left. apply in_flat_map. exists (1, RY_). split; [right; left; reflexivity|]. unfold ktable. apply in_map_iff. exists 1. split; [reflexivity|right; left; reflexivity].
Qed.
Print Assumptions C25_identity.
Print Assumptions C25_defined.
Print Assumptions C25_consistent.
Print Assumptions C25_name_clash_refuted.
Print Assumptions C25_layers.
