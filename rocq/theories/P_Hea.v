(** C24: the layout of the hardware-efficient ansatz. *)
From Coq Require Import String Reals List Arith Bool Lia Permutation.
From Coquelicot Require Import Coquelicot.
From Coq Require Import List.
From Verif Require Import S_Ops S_Sets M_QubitSupport M_Block S_Den M_BlockOps M_Tensor M_Transpile L_Support M_Checkpoint M_Names L_Names M_Hea.
Import ListNotations.
Open Scope string_scope.
Open Scope nat_scope.
Open Scope list_scope.

(** * Specification *)
(** The gates of a circuit in order. *)
Fixpoint gates (b : block) : list block :=
  match b with BChain bs | BKron bs => flat_map gates bs | _ => [b] end.
(** The rotation a gate is, and on which qubit. *)
Definition rotation_of (g : block) : option (rot * nat) := match g with BRot o q _ => Some (o, q) | _ => None end.
(** Control and target of an entangling gate of the given kind. *)
Definition pair_of (op : entop) (g : block) : option (nat * nat) :=
  match op, g with
  | E_CNOT, BCtrl [c] (BPrim PX t) | E_CZ, BCtrl [c] (BPrim PZ t) => Some (c, t)
  | E_CRX, BPCtrl [c] (BRot RX_ t _) | E_CRY, BPCtrl [c] (BRot RY_ t _)
  | E_CRZ, BPCtrl [c] (BRot RZ_ t _) | E_CPHASE, BPCtrl [c] (BRot RPhase t _) => Some (c, t)
  | _, _ => None
  end.
(** The parameter name of a gate, if it has one. *)
Definition name_of (g : block) : list string :=
  match g with BRot _ _ (EVar s) | BPCtrl _ (BRot _ _ (EVar s)) | BEvo _ (EVar s) => [s] | _ => [] end.
(** Neighbouring qubits of a line. *)
Definition neighbours (qs : list nat) : list (nat * nat) := combine qs (tl qs).

(** * Lists *)
Lemma nth_seq_id {A} (d : A) l : map (fun i => nth i l d) (seq 0 (length l)) = l.
Proof.
  induction l as [|a l IH]; [reflexivity|]. simpl. f_equal. rewrite <- seq_shift, map_map. exact IH.
Qed.
Lemma neighbours_nth qs : neighbours qs = map (fun i => (nth i qs 0, nth (S i) qs 0)) (seq 0 (length qs - 1)).
Proof.
  unfold neighbours. destruct qs as [|a qs]; [reflexivity|]. simpl tl. replace (length (a :: qs) - 1) with (length qs) by (simpl; lia).
  revert a. induction qs as [|b qs IH]; intros a; [reflexivity|]. simpl. f_equal. rewrite <- seq_shift, map_map. exact (IH b).
Qed.
Lemma osequence_map_some {A B} (f : A -> option B) l ys : osequence (map f l) = Some ys -> Forall2 (fun x y => f x = Some y) l ys.
Proof.
  revert ys. induction l as [|x l IH]; simpl; intros ys H; [injection H as <-; constructor|].
  destruct (f x) as [y|] eqn:E; [|discriminate]. simpl in H. destruct (osequence (map f l)) as [zs|]; [|discriminate]. injection H as <-. constructor; [exact E|apply IH; reflexivity].
Qed.
Lemma osequence_some_map {A B} (f : A -> option B) (g : A -> B) l : (forall x, In x l -> f x = Some (g x)) -> osequence (map f l) = Some (map g l).
Proof.
  induction l as [|x l IH]; simpl; intros H; [reflexivity|]. rewrite (H x (or_introl eq_refl)). simpl. rewrite IH by (intros y Hy; apply H; right; exact Hy). reflexivity.
Qed.
Lemma nth_error_firstn_nth (s : list nat) n i : n <= length s -> i < n -> nth_error s i = Some (nth i (firstn n s) 0).
Proof.
  revert s i. induction n as [|n IH]; intros s i H1 H2; [lia|]. destruct s as [|a s]; simpl in H1; [lia|]. destruct i as [|i]; [reflexivity|]. simpl. apply IH; lia.
Qed.
Lemma filter_split {A} (f : A -> bool) l : Permutation (filter f l ++ filter (fun x => negb (f x)) l) l.
Proof.
  induction l as [|a l IH]; [constructor|]. simpl. destruct (f a); simpl; [constructor; exact IH|]. rewrite <- Permutation_middle. constructor. exact IH.
Qed.
Lemma ordpairs {A} (R : A -> A -> Prop) l : NoDup l -> (forall x y, In x l -> In y l -> x <> y -> R x y) -> ForallOrdPairs R l.
Proof.
  induction l as [|a l IH]; intros N H; [constructor|]. inversion N as [|? ? Na Nl]; subst. constructor.
  - apply Forall_forall. intros y Hy. apply H; [left; reflexivity|right; exact Hy|intros ->; contradiction].
  - apply IH; [exact Nl|]. intros x y Hx Hy. apply H; right; assumption.
Qed.
Lemma ordpairs_map {A B} (R : B -> B -> Prop) (f : A -> B) l : ForallOrdPairs (fun x y => R (f x) (f y)) l -> ForallOrdPairs R (map f l).
Proof.
  induction 1 as [|a l H1 H2 IH]; [constructor|]. simpl. constructor; [|exact IH]. apply Forall_forall. intros y Hy. apply in_map_iff in Hy as (x & <- & Hx). rewrite Forall_forall in H1. apply H1, Hx.
Qed.

Section Layout.
  Variable si : list nat -> list nat.
  Hypothesis Hs : set_order si.

  (** * Rotations *)
  Definition rname (prefix : string) (k : nat) : string := (prefix ++ "_" ++ dec k)%string.
  Definition rgates (prefix : string) (qs : list nat) (o : rot) (k : nat) : list block :=
    map (fun i => BRot o (nth i qs 0) (EVar (rname prefix (k + i)))) (seq 0 (length qs)).
  Lemma rot_gates_some n prefix s o k gs : rot_gates n prefix s o k = Some gs -> gs = rgates prefix (firstn n s) o k /\ n <= length s.
  Proof.
    intros H. assert (L : n <= length s).
    { destruct n as [|n]; [lia|]. unfold rot_gates in H. apply osequence_map_some in H.
      destruct (le_lt_dec (S n) (length s)) as [L|L]; [exact L|exfalso].
      assert (X : In n (seq 0 (S n))) by (apply in_seq; lia). clear - H X L. induction H as [|x y xs ys Hxy H IH]; [destruct X|].
      destruct X as [->|X]; [|apply IH, X]. assert (E : nth_error s n = None) by (apply nth_error_None; lia). rewrite E in Hxy. discriminate. }
    split; [|exact L]. assert (HL : length (firstn n s) = n) by (apply firstn_length_le, L).
    unfold rot_gates in H. rewrite (osequence_some_map _ (fun i => BRot o (nth i (firstn n s) 0) (EVar (rname prefix (k + i))))) in H.
    - injection H as <-. unfold rgates. rewrite HL. reflexivity.
    - intros i Hi. apply in_seq in Hi. rewrite (nth_error_firstn_nth s n i L) by lia. reflexivity.
  Qed.
  Lemma rot_gates_def n prefix s o k : n <= length s -> rot_gates n prefix s o k = Some (rgates prefix (firstn n s) o k).
  Proof.
    intros L. assert (HL : length (firstn n s) = n) by (apply firstn_length_le, L). unfold rgates. rewrite HL. apply osequence_some_map.
    intros i Hi. apply in_seq in Hi. rewrite (nth_error_firstn_nth s n i L) by lia. reflexivity.
  Qed.
  Lemma rgates_rot prefix qs o k : map rotation_of (rgates prefix qs o k) = map (fun q => Some (o, q)) qs.
  Proof. unfold rgates. rewrite map_map. simpl. rewrite <- (map_map (fun i => nth i qs 0) (fun q => Some (o, q))), nth_seq_id. reflexivity. Qed.
  Lemma rgates_gates prefix qs o k : flat_map gates (rgates prefix qs o k) = rgates prefix qs o k.
  Proof. unfold rgates. induction (seq 0 (length qs)) as [|i l IH]; simpl; [reflexivity|rewrite IH; reflexivity]. Qed.
  Lemma rgates_names prefix qs o k : flat_map name_of (rgates prefix qs o k) = map (rname prefix) (seq k (length qs)).
  Proof.
    unfold rgates. assert (E : seq k (length qs) = map (fun i => k + i) (seq 0 (length qs))).
    { generalize (length qs) as n. intros n. replace k with (k + 0) at 1 by lia. generalize 0 as a. induction n as [|n IH]; intros a; [reflexivity|]. simpl. f_equal. rewrite <- IH. f_equal. lia. }
    rewrite E, map_map. clear E. induction (seq 0 (length qs)) as [|i l IH]; simpl; [reflexivity|rewrite IH; reflexivity].
  Qed.
  Lemma mk_kron_some bs b : mk_kron si bs = Some b -> b = BKron bs /\ bs <> [] /\ ForallOrdPairs disjoint_blocks bs.
  Proof.
    intros H. destruct (mk_kron_spec si Hs bs) as [H1 [H2|H2]]; rewrite H2 in H; [|discriminate]. injection H as <-. split; [reflexivity|]. apply H1, H2.
  Qed.
  Lemma list_prod_cons (o : rot) (ops : list rot) (qs : list nat) : list_prod (o :: ops) qs = map (fun q => (o, q)) qs ++ list_prod ops qs.
  Proof. reflexivity. Qed.
  Lemma rot_krons_some n prefix s ops : forall k ks, rot_krons si n prefix s ops k = Some ks ->
    map rotation_of (flat_map gates ks) = map Some (list_prod ops (firstn n s)) /\
    flat_map name_of (flat_map gates ks) = map (rname prefix) (seq k (n * length ops)) /\ (ops <> [] -> n <= length s /\ 0 < n /\ NoDup (firstn n s)).
  Proof.
    induction ops as [|o ops IH]; simpl; intros k ks H.
    - injection H as <-. rewrite Nat.mul_0_r. split; [reflexivity|]. split; [reflexivity|congruence].
    - destruct (rot_gates n prefix s o k) as [gs|] eqn:E; [|discriminate]. simpl in H. apply rot_gates_some in E as [-> L].
      destruct (mk_kron si (rgates prefix (firstn n s) o k)) as [kr|] eqn:E2; [|discriminate]. simpl in H.
      destruct (rot_krons si n prefix s ops (k + n)) as [rest|] eqn:E3; [|discriminate]. injection H as <-. apply IH in E3 as (I1 & I2 & _).
      apply mk_kron_some in E2 as (-> & NE & FO). simpl. rewrite rgates_gates. assert (HL : length (firstn n s) = n) by (apply firstn_length_le, L). split; [|split].
      + rewrite map_app, rgates_rot, I1, map_app, map_map. reflexivity.
      + rewrite flat_map_app, rgates_names, I2, HL, <- map_app. f_equal. rewrite <- seq_app. f_equal. lia.
      + intros _. split; [exact L|]. split; [destruct n; [|lia]; exfalso; apply NE; unfold rgates; rewrite HL; reflexivity|].
        apply (NoDup_nth (firstn n s) 0). rewrite HL. intros i j Hi Hj E.
        assert (K : forall i j, i < j -> j < n -> nth i (firstn n s) 0 = nth j (firstn n s) 0 -> False).
        { clear - FO HL. unfold rgates in FO. rewrite HL in FO. intros i j Hij Hj E.
          assert (G : forall a m, ForallOrdPairs disjoint_blocks (map (fun i => BRot o (nth i (firstn n s) 0) (EVar (rname prefix (k + i)))) (seq a m)) -> forall i j, a <= i < j -> j < a + m -> nth i (firstn n s) 0 <> nth j (firstn n s) 0).
          { intros a m. revert a. induction m as [|m IH]; intros a F x y Hxy Hy; [lia|]. simpl in F. inversion F as [|? ? F1 F2]; subst.
            destruct (Nat.eq_dec a x) as [->|Ne].
            - rewrite Forall_forall in F1. specialize (F1 (BRot o (nth y (firstn n s) 0) (EVar (rname prefix (k + y))))).
              assert (IN : In (BRot o (nth y (firstn n s) 0) (EVar (rname prefix (k + y)))) (map (fun i => BRot o (nth i (firstn n s) 0) (EVar (rname prefix (k + i)))) (seq (S x) m))) by (apply in_map_iff; exists y; split; [reflexivity|apply in_seq; lia]).
              intros EE. apply (F1 IN (nth x (firstn n s) 0)); simpl; [auto|left; symmetry; exact EE].
            - apply (IH (S a) F2); lia. }
          apply (G 0 n FO i j); [lia|lia|exact E]. }
        destruct (lt_eq_lt_dec i j) as [[C|C]|C]; [exfalso; apply (K i j C Hj E)|exact C|exfalso; apply (K j i C Hi (eq_sym E))].
  Qed.
  Lemma rgates_disjoint prefix qs o k : NoDup qs -> ForallOrdPairs disjoint_blocks (rgates prefix qs o k).
  Proof.
    intros N. unfold rgates. apply ordpairs_map. apply ordpairs; [apply seq_NoDup|]. intros x y Hx Hy Ne q. simpl. apply in_seq in Hx, Hy.
    intros [<-|[]] [E|[]]. apply Ne. apply (proj1 (NoDup_nth qs 0) N x y); [lia|lia|symmetry; exact E].
  Qed.
  Lemma rot_krons_def n prefix s ops : n <= length s -> 0 < n -> NoDup (firstn n s) -> forall k, exists ks, rot_krons si n prefix s ops k = Some ks.
  Proof.
    intros L P N. induction ops as [|o ops IH]; intros k; simpl; [eexists; reflexivity|]. rewrite rot_gates_def by exact L. simpl.
    rewrite (proj2 (proj1 (mk_kron_spec si Hs (rgates prefix (firstn n s) o k)))).
    - simpl. destruct (IH (k + n)) as [ks ->]. eexists. reflexivity.
    - split; [|apply rgates_disjoint, N]. unfold rgates. rewrite (firstn_length_le s L). destruct n; [lia|discriminate].
  Qed.
  Lemma rotations_some n prefix s ops : forall d k rl, rotations_digital si n d prefix s ops k = Some rl ->
    length rl = d /\ (forall r, In r rl -> map rotation_of (gates r) = map Some (list_prod ops (firstn n s))) /\
    flat_map name_of (flat_map gates rl) = map (rname prefix) (seq k (d * (n * length ops))) /\
    (0 < d -> ops <> [] -> n <= length s /\ 0 < n /\ NoDup (firstn n s)).
  Proof.
    induction d as [|d IH]; simpl; intros k rl H.
    - injection H as <-. split; [reflexivity|]. split; [intros r []|]. split; [reflexivity|lia].
    - destruct (rot_krons si n prefix s ops k) as [ks|] eqn:E; [|discriminate]. simpl in H.
      destruct (rotations_digital si n d prefix s ops (k + n * length ops)) as [rest|] eqn:E2; [|discriminate]. injection H as <-.
      apply IH in E2 as (I1 & I2 & I3 & _). apply rot_krons_some in E as (K1 & K2 & K3). split; [simpl; congruence|]. split; [|split].
      + intros r [<-|Hr]; [exact K1|apply I2, Hr].
      + simpl. rewrite flat_map_app, I3, K2, <- map_app, <- seq_app. reflexivity.
      + intros _. exact K3.
  Qed.
  Lemma rotations_def n prefix s ops : n <= length s -> 0 < n -> NoDup (firstn n s) -> forall d k, exists rl, rotations_digital si n d prefix s ops k = Some rl.
  Proof.
    intros L P N. induction d as [|d IH]; intros k; simpl; [eexists; reflexivity|]. destruct (rot_krons_def n prefix s ops L P N k) as [ks ->]. simpl.
    destruct (IH (k + n * length ops)) as [rl ->]. eexists. reflexivity.
  Qed.

  (** * Entanglers *)
  Definition ename (prefix : string) (k : nat) : string := (prefix ++ "_ent_" ++ dec k)%string.
  Definition parametric (op : entop) : bool := match op with E_CNOT | E_CZ => false | _ => true end.
  Definition at_positions (n : nat) (qs : list nat) (ps : list nat) : list (nat * nat) := map (fun i => (nth i qs 0, nth ((i + 1) mod n) qs 0)) ps.
  Lemma pair_of_entangler op c t x : pair_of op (entangler c t x op) = Some (c, t).
  Proof. destruct op; reflexivity. Qed.
  Lemma gates_entangler op c t x : gates (entangler c t x op) = [entangler c t x op].
  Proof. destruct op; reflexivity. Qed.
  Lemma name_entangler op c t x : name_of (entangler c t x op) = if parametric op then [x] else [].
  Proof. destruct op; reflexivity. Qed.
  Lemma qubits_entangler op c t x q : In q (qubits (entangler c t x op)) <-> q = c \/ q = t.
  Proof. destruct op; simpl; intuition. Qed.
  Lemma ent_gates_some n prefix s op ps : (forall i, In i ps -> i < n) -> n <= length s -> forall k, exists gs, ent_gates n prefix s op ps k = Some gs /\
    map (pair_of op) gs = map Some (at_positions n (firstn n s) ps) /\ flat_map gates gs = gs /\
    flat_map name_of gs = (if parametric op then map (ename prefix) (seq k (length ps)) else []) /\
    map (fun g => qubits g) gs = map (fun ct => qubits (entangler (fst ct) (snd ct) "" op)) (at_positions n (firstn n s) ps).
  Proof.
    intros HP L. induction ps as [|i ps IH]; intros k.
    - exists []. repeat split. simpl. destruct (parametric op); reflexivity.
    - assert (Hi : i < n) by (apply HP; left; reflexivity). assert (Hi' : (i + 1) mod n < n) by (apply Nat.mod_upper_bound; lia).
      destruct (IH (fun j Hj => HP j (or_intror Hj)) (k + 1)) as (gs & E & I1 & I2 & I3 & I4).
      exists (entangler (nth i (firstn n s) 0) (nth ((i + 1) mod n) (firstn n s) 0) (ename prefix k) op :: gs).
      split; [simpl; rewrite (nth_error_firstn_nth s n i L Hi), (nth_error_firstn_nth s n _ L Hi'); simpl; rewrite E; reflexivity|].
      split; [simpl; rewrite pair_of_entangler, I1; reflexivity|]. split; [simpl; rewrite gates_entangler, I2; reflexivity|]. split.
      + simpl. rewrite name_entangler, I3, Nat.add_1_r. destruct (parametric op); reflexivity.
      + simpl. rewrite I4. destruct op; reflexivity.
  Qed.
  Lemma ent_gates_len n prefix s op ps : forall k gs, ent_gates n prefix s op ps k = Some gs -> (forall i, In i ps -> i < n) -> forall i, In i ps -> i < length s /\ (i + 1) mod n < length s.
  Proof.
    induction ps as [|j ps IH]; intros k gs H HP i Hi; [destruct Hi|]. simpl in H.
    destruct (nth_error s j) as [c|] eqn:E1; [|discriminate]. simpl in H. destruct (nth_error s ((j + 1) mod n)) as [t|] eqn:E2; [|discriminate]. simpl in H.
    destruct (ent_gates n prefix s op ps (k + 1)) as [rest|] eqn:E3; [|discriminate]. destruct Hi as [->|Hi].
    - split; apply nth_error_Some; congruence.
    - apply (IH _ _ E3); [intros x Hx; apply HP; right; exact Hx|exact Hi].
  Qed.
  Lemma even_lt n i : In i (even_positions n) -> i < n - 1 /\ Nat.even i = true.
  Proof. unfold even_positions. rewrite filter_In, in_seq, andb_true_iff, Nat.ltb_lt. tauto. Qed.
  Lemma odd_lt n p i : In i (odd_positions n p) -> i < n /\ Nat.odd i = true.
  Proof. unfold odd_positions. rewrite filter_In, in_seq. intros [H1 H2]. split; [lia|exact H2]. Qed.
  Lemma even_eq n : 1 <= n -> even_positions n = filter Nat.even (seq 0 (n - 1)).
  Proof.
    intros H. unfold even_positions. replace (seq 0 n) with (seq 0 (n - 1) ++ [n - 1]) by (replace n with (S (n - 1)) at 3 by lia; rewrite seq_S; reflexivity).
    rewrite filter_app. simpl. rewrite Nat.ltb_irrefl, andb_false_r, app_nil_r. apply filter_ext_in. intros i Hi. apply in_seq in Hi. destruct (Nat.ltb_spec i (n - 1)); [apply andb_true_r|lia].
  Qed.
  Lemma odd_eq n p : 1 <= n -> odd_positions n p = filter Nat.odd (seq 0 (n - 1)) ++ (if p && Nat.even n then [n - 1] else []).
  Proof.
    intros H. unfold odd_positions. destruct p; simpl; [|rewrite app_nil_r; reflexivity]. rewrite Nat.sub_0_r.
    replace (seq 0 n) with (seq 0 (n - 1) ++ [n - 1]) by (replace n with (S (n - 1)) at 3 by lia; rewrite seq_S; reflexivity). rewrite filter_app. f_equal. simpl.
    replace (Nat.even n) with (Nat.odd (n - 1)) by (replace n with (S (n - 1)) at 2 by lia; rewrite Nat.even_succ; reflexivity). reflexivity.
  Qed.
  (** The positions of both krons together: every neighbour once, plus the closing one. *)
  Lemma positions_perm n p : 2 <= n -> Permutation (even_positions n ++ (if Nat.ltb 2 n then odd_positions n p else [])) (seq 0 (n - 1) ++ (if p && Nat.even n && Nat.ltb 2 n then [n - 1] else [])).
  Proof.
    intros H. rewrite even_eq by lia. destruct (Nat.ltb_spec 2 n) as [L|L].
    - rewrite odd_eq, andb_true_r by lia. rewrite app_assoc. apply Permutation_app_tail. exact (filter_split Nat.even (seq 0 (n - 1))).
    - assert (n = 2) by lia. subst n. simpl. rewrite !andb_false_r. apply Permutation_refl.
  Qed.
  Lemma at_seq n qs : length qs = n -> 1 <= n -> at_positions n qs (seq 0 (n - 1)) = neighbours qs.
  Proof.
    intros H H1. rewrite neighbours_nth, H. unfold at_positions. apply map_ext_in. intros i Hi. apply in_seq in Hi. rewrite Nat.add_1_r, Nat.mod_small by lia. reflexivity.
  Qed.
  Lemma at_closing n qs : length qs = n -> 1 <= n -> at_positions n qs [n - 1] = [(last qs 0, hd 0 qs)].
  Proof.
    intros H H1. unfold at_positions. simpl. replace (n - 1 + 1) with n by lia. rewrite Nat.mod_same by lia. f_equal. f_equal.
    - clear - H. revert n H. induction qs as [|a qs IH]; intros n H; [destruct (n - 1); reflexivity|]. simpl in H. subst n. destruct qs as [|b qs]; [reflexivity|].
      change (last (a :: b :: qs) 0) with (last (b :: qs) 0). rewrite <- (IH (length (b :: qs)) eq_refl). simpl. rewrite Nat.sub_0_r. reflexivity.
    - destruct qs; reflexivity.
  Qed.
  Lemma mk_ent_kron n prefix s op ps : (forall i, In i ps -> i < n) -> n <= length s -> NoDup (firstn n s) -> NoDup ps -> ps <> [] ->
    (forall i j, In i ps -> In j ps -> i <> j -> i <> (j + 1) mod n /\ (i + 1) mod n <> (j + 1) mod n) ->
    forall k, exists gs, ent_gates n prefix s op ps k = Some gs /\ mk_kron si gs = Some (BKron gs).
  Proof.
    intros HP L N Np NE HD k. destruct (ent_gates_some n prefix s op ps HP L k) as (gs & E & _ & _ & _ & I4). exists gs. split; [exact E|].
    apply (proj1 (mk_kron_spec si Hs gs)). split; [intros ->; destruct ps; [congruence|discriminate I4]|].
    assert (HL : length (firstn n s) = n) by (apply firstn_length_le, L).
    assert (F : ForallOrdPairs (fun a b => forall q : nat, In q a -> In q b -> False) (map (fun g => qubits g) gs)).
    { rewrite I4. unfold at_positions. rewrite map_map. cbn [fst snd]. apply ordpairs_map. apply ordpairs; [exact Np|]. intros x y Hx Hy Ne q Q1 Q2. apply qubits_entangler in Q1, Q2.
      assert (INJ : forall a b, a < n -> b < n -> nth a (firstn n s) 0 = nth b (firstn n s) 0 -> a = b) by (intros a b Ha Hb; apply (proj1 (NoDup_nth (firstn n s) 0) N); rewrite HL; assumption).
      assert (M : forall i, (i + 1) mod n < n) by (intros i; apply Nat.mod_upper_bound; specialize (HP x Hx); lia).
      destruct (HD x y Hx Hy Ne) as [D1 D2]. destruct (HD y x Hy Hx (fun e => Ne (eq_sym e))) as [D3 _].
      destruct Q1 as [Q1|Q1], Q2 as [Q2|Q2]; rewrite Q1 in Q2; apply INJ in Q2; auto; congruence. }
    clear - F. revert F. induction gs as [|g gs IH]; intros F; [constructor|]. simpl in F. inversion F as [|? ? F1 F2]; subst. constructor; [|apply IH, F2].
    apply Forall_forall. intros y Hy. rewrite Forall_forall in F1. intros q. apply F1. apply in_map_iff. exists y. auto.
  Qed.
  Definition ent_positions (n : nat) (p : bool) : list nat := even_positions n ++ (if Nat.ltb 2 n then odd_positions n p else []).
  Lemma even_one : even_positions 1 = []. Proof. reflexivity. Qed.
  Lemma even_nonempty n : 2 <= n -> even_positions n <> [].
  Proof. intros H E. assert (IN : In 0 (even_positions n)) by (unfold even_positions; apply filter_In; split; [apply in_seq; lia|]; simpl; apply Nat.ltb_lt; lia). rewrite E in IN. destruct IN. Qed.
  Lemma odd_nonempty n p : 2 < n -> odd_positions n p <> [].
  Proof. intros H E. assert (IN : In 1 (odd_positions n p)) by (unfold odd_positions; apply filter_In; split; [apply in_seq; destruct p; lia|reflexivity]). rewrite E in IN. destruct IN. Qed.
  Lemma entanglers_some n prefix s p op : forall d k el, entanglers_digital si n d prefix s p op k = Some el ->
    length el = d /\ (0 < d -> 2 <= n /\ n <= length s) /\
    (forall e, In e el -> map (pair_of op) (gates e) = map Some (at_positions n (firstn n s) (ent_positions n p))) /\
    flat_map name_of (flat_map gates el) = (if parametric op then map (ename prefix) (seq k (d * length (ent_positions n p))) else []).
  Proof.
    induction d as [|d IH]; intros k el H.
    - injection H as <-. split; [reflexivity|]. split; [lia|]. split; [intros e []|]. simpl. destruct (parametric op); reflexivity.
    - cbn [entanglers_digital] in H. destruct (ent_gates n prefix s op (even_positions n) k) as [ev|] eqn:E1; [|discriminate]. cbn [obind] in H.
      destruct (mk_kron si ev) as [kev|] eqn:E2; [|discriminate]. cbn [obind] in H.
      assert (HN : 2 <= n).
      { destruct n as [|[|n]]; [| |lia]; simpl in E1; injection E1 as <-; discriminate E2. }
      assert (HE : forall i, In i (even_positions n) -> i < n) by (intros i Hi; apply even_lt in Hi; lia).
      assert (HO : forall i, In i (odd_positions n p) -> i < n) by (intros i Hi; apply odd_lt in Hi; lia).
      assert (LE := ent_gates_len _ _ _ _ _ _ _ E1 HE).
      (* the first kron reaches all positions up to n-1 or n-2; together with the second one all of them *)
      apply mk_kron_some in E2 as (-> & _ & _).
      destruct (Nat.ltb_spec 2 n) as [L2|L2].
      + destruct (ent_gates n prefix s op (odd_positions n p) (k + length (even_positions n))) as [od|] eqn:E3; [|discriminate]. cbn [obind] in H.
        destruct (mk_kron si od) as [kod|] eqn:E4; [|discriminate]. cbn [obind] in H. apply mk_kron_some in E4 as (-> & _ & _).
        assert (LO := ent_gates_len _ _ _ _ _ _ _ E3 HO).
        destruct (entanglers_digital si n d prefix s p op _) as [rest|] eqn:E5; [|discriminate]. injection H as <-. apply IH in E5 as (I1 & _ & I3 & I4).
        assert (LS : n <= length s).
        { destruct (Nat.even (n - 2)) eqn:EV.
          - assert (IN : In (n - 2) (even_positions n)) by (rewrite even_eq by lia; apply filter_In; split; [apply in_seq; lia|exact EV]). destruct (LE _ IN) as [_ X]. rewrite Nat.mod_small in X by lia. lia.
          - assert (IN : In (n - 2) (odd_positions n p)) by (rewrite odd_eq by lia; apply in_app_iff; left; apply filter_In; split; [apply in_seq; lia|unfold Nat.odd; rewrite EV; reflexivity]).
            destruct (LO _ IN) as [_ X]. rewrite Nat.mod_small in X by lia. lia. }
        destruct (ent_gates_some n prefix s op _ HE LS k) as (gs & G1 & G2 & G3 & G4 & _). rewrite E1 in G1. injection G1 as <-.
        destruct (ent_gates_some n prefix s op _ HO LS (k + length (even_positions n))) as (gs' & G1' & G2' & G3' & G4' & _). rewrite E3 in G1'. injection G1' as <-.
        assert (EP : ent_positions n p = even_positions n ++ odd_positions n p) by (unfold ent_positions; rewrite (proj2 (Nat.ltb_lt 2 n) L2); reflexivity).
        assert (GE : gates (BChain [BKron ev; BKron od]) = ev ++ od) by (simpl; rewrite G3, G3', app_nil_r; reflexivity).
        split; [simpl; congruence|]. split; [intros _; auto|]. split.
        * intros e [<-|He]; [|apply I3, He]. rewrite GE, EP, map_app, G2, G2', <- map_app. unfold at_positions. rewrite <- map_app. reflexivity.
        * cbn [flat_map]. rewrite GE, !flat_map_app, G4, G4', I4, EP, app_length. destruct (parametric op); [|reflexivity]. rewrite <- !map_app. f_equal.
          rewrite <- seq_app. rewrite <- Nat.add_assoc, <- seq_app. f_equal.
      + destruct (entanglers_digital si n d prefix s p op _) as [rest|] eqn:E5; [|discriminate]. injection H as <-. apply IH in E5 as (I1 & _ & I3 & I4).
        assert (EP : ent_positions n p = even_positions n) by (unfold ent_positions; rewrite (proj2 (Nat.ltb_ge 2 n) L2), app_nil_r; reflexivity).
        assert (LS : n <= length s).
        { assert (n = 2) by lia. subst n. assert (IN : In 0 (even_positions 2)) by (left; reflexivity). destruct (LE _ IN) as [_ X]. simpl in X. lia. }
        destruct (ent_gates_some n prefix s op _ HE LS k) as (gs & G1 & G2 & G3 & G4 & _). rewrite E1 in G1. injection G1 as <-.
        assert (GE : gates (BChain [BKron ev]) = ev) by (simpl; rewrite G3, app_nil_r; reflexivity).
        split; [simpl; congruence|]. split; [intros _; auto|]. split.
        * intros e [<-|He]; [|apply I3, He]. rewrite GE, EP, G2. reflexivity.
        * cbn [flat_map]. rewrite GE, flat_map_app, G4, I4, EP. destruct (parametric op); [|reflexivity]. rewrite <- map_app, <- seq_app. reflexivity.
  Qed.
  Lemma entanglers_def n prefix s p op : 2 <= n -> n <= length s -> NoDup (firstn n s) -> forall d k, exists el, entanglers_digital si n d prefix s p op k = Some el.
  Proof.
    intros HN L N. induction d as [|d IH]; intros k; [eexists; reflexivity|]. cbn [entanglers_digital].
    destruct (mk_ent_kron n prefix s op (even_positions n)) with (k := k) as (ev & -> & E2); [intros i Hi; apply even_lt in Hi; lia|exact L|exact N|apply NoDup_filter, seq_NoDup|apply even_nonempty, HN| |].
    { intros i j Hi Hj Ne. apply even_lt in Hi as [Hi Ei], Hj as [Hj Ej]. rewrite !Nat.mod_small by lia. split; [|lia]. intros ->. rewrite Nat.add_1_r, Nat.even_succ in Ei. unfold Nat.odd in Ei. rewrite Ej in Ei. discriminate. }
    cbn [obind]. rewrite E2. cbn [obind]. destruct (Nat.ltb_spec 2 n) as [L2|L2].
    - destruct (mk_ent_kron n prefix s op (odd_positions n p)) with (k := k + length (even_positions n)) as (od & -> & E4); [intros i Hi; apply odd_lt in Hi; lia|exact L|exact N|apply NoDup_filter, seq_NoDup|apply odd_nonempty, L2| |].
      { intros i j Hi Hj Ne. apply odd_lt in Hi as [Hi Ei], Hj as [Hj Ej].
        assert (M : forall x, x < n -> (x + 1) mod n = x + 1 /\ x + 1 < n \/ (x + 1) mod n = 0 /\ x + 1 = n).
        { intros x Hx. destruct (Nat.eq_dec (x + 1) n) as [e|e]; [right; rewrite e, Nat.mod_same by lia; auto|left; split; [apply Nat.mod_small; lia|lia]]. }
        assert (ODD : forall x y, Nat.odd x = true -> Nat.odd y = true -> x <> y + 1).
        { intros x y Hx Hy ->. rewrite Nat.add_1_r, Nat.odd_succ in Hx. unfold Nat.odd in Hy. rewrite Hx in Hy. discriminate. }
        split.
        - destruct (M j Hj) as [[-> _]|[-> _]]; [apply ODD; assumption|intros ->; discriminate Ei].
        - destruct (M i Hi) as [[-> ?]|[-> ?]], (M j Hj) as [[-> ?]|[-> ?]]; lia. }
      cbn [obind]. rewrite E4. cbn [obind]. destruct (IH (k + length (even_positions n) + length (odd_positions n p))) as [el ->]. eexists. reflexivity.
    - destruct (IH (k + length (even_positions n))) as [el ->]. eexists. reflexivity.
  Qed.

  (** * Together *)
  Lemma interleave_flat a b : length a = length b -> interleave a b = flat_map (fun p => [fst p; snd p]) (combine a b).
  Proof. revert b. induction a as [|x a IH]; intros [|y b] H; try reflexivity; try discriminate. simpl. do 2 f_equal. apply IH. simpl in H. lia. Qed.
  Lemma interleave_perm {A} (f : block -> list A) a b : length a = length b -> Permutation (flat_map f (interleave a b)) (flat_map f a ++ flat_map f b).
  Proof.
    revert b. induction a as [|x a IH]; intros [|y b] H; try discriminate; [constructor|]. simpl. rewrite <- app_assoc. apply Permutation_app_head.
    rewrite IH by (simpl in H; lia). rewrite !app_assoc. apply Permutation_app_tail. apply Permutation_app_comm.
  Qed.
End Layout.
Lemma rname_nodup prefix k n : NoDup (map (rname prefix) (seq k n)).
Proof.
  apply FinFun.Injective_map_NoDup; [|apply seq_NoDup]. intros a b H. unfold rname in H. apply append_inj in H. simpl in H. injection H as H. apply dec_inj, H.
Qed.
Lemma ename_nodup prefix k n : NoDup (map (ename prefix) (seq k n)).
Proof.
  apply FinFun.Injective_map_NoDup; [|apply seq_NoDup]. intros a b H. unfold ename in H. apply append_inj in H. simpl in H. injection H as H. apply dec_inj, H.
Qed.
Lemma names_disjoint prefix a b : rname prefix a <> ename prefix b.
Proof.
  unfold rname, ename. intros H. apply append_inj in H. simpl in H. injection H as H. destruct (dec_head a) as (c & x & E & D). rewrite E in H. injection H as -> _. discriminate D.
Qed.
Lemma Permutation_NoDup' {A} (l l' : list A) : Permutation l l' -> NoDup l' -> NoDup l.
Proof. intros P. apply Permutation_NoDup. symmetry. exact P. Qed.
Lemma flat_map_flat_map {A B D} (f : A -> list B) (g : B -> list D) l : flat_map g (flat_map f l) = flat_map (fun x => flat_map g (f x)) l.
Proof. induction l as [|x l IH]; simpl; [reflexivity|]. rewrite flat_map_app, IH. reflexivity. Qed.

(** A circuit of [depth] layers.  In each layer: first every operation of the list on every qubit, in order; then the entangling
    gates, one for each pair of neighbouring qubits, and one closing the ring if [periodic], [n] is even and larger than 2. *)
Theorem C24_layout : forall si n depth prefix support periodic ops op b, set_order si ->
  hea_digital si n depth prefix support periodic ops op = Some b ->
  let qs := firstn n (match support with Some s => s | None => seq 0 n end) in
  exists layers, length layers = depth /\ b = BChain (flat_map (fun l => [fst l; snd l]) layers) /\
    forall rotations entanglers, In (rotations, entanglers) layers ->
      map rotation_of (gates rotations) = map Some (list_prod ops qs) /\
      Permutation (map (pair_of op) (gates entanglers))
        (map Some (neighbours qs ++ if periodic && Nat.even n && Nat.ltb 2 n then [(last qs 0, hd 0 qs)] else [])).
Proof.
  intros si n depth prefix support periodic ops op b Hs H qs. unfold hea_digital in H. set (s := match support with Some s => s | None => seq 0 n end) in *.
  destruct (rotations_digital si n depth prefix s ops 0) as [rl|] eqn:E1; [|discriminate]. cbn [obind] in H.
  destruct (entanglers_digital si n depth prefix s periodic op 0) as [el|] eqn:E2; [|discriminate]. injection H as <-.
  apply (rotations_some si Hs) in E1 as (R1 & R2 & _ & _). apply (entanglers_some si Hs) in E2 as (L1 & L2 & L3 & _).
  exists (combine rl el). split; [rewrite combine_length; lia|]. split; [rewrite interleave_flat by congruence; reflexivity|].
  intros r e Hin. split; [apply R2, (in_combine_l _ _ _ _ Hin)|]. rewrite (L3 e (in_combine_r _ _ _ _ Hin)).
  assert (HD : 0 < depth) by (destruct depth; [destruct rl; [destruct Hin|discriminate R1]|lia]). destruct (L2 HD) as [N2 NL].
  assert (HL : length qs = n) by (apply firstn_length_le, NL). apply Permutation_map. fold qs.
  assert (P : Permutation (at_positions n qs (ent_positions n periodic)) (at_positions n qs (seq 0 (n - 1) ++ (if periodic && Nat.even n && Nat.ltb 2 n then [n - 1] else [])))) by (apply Permutation_map, positions_perm, N2).
  rewrite P. unfold at_positions. rewrite map_app. fold (at_positions n qs (seq 0 (n - 1))). rewrite at_seq by (try exact HL; lia).
  destruct (periodic && Nat.even n && Nat.ltb 2 n); [|reflexivity]. fold (at_positions n qs [n - 1]). rewrite at_closing by (try exact HL; lia). reflexivity.
Qed.
(** All parameter names are distinct. *)
Theorem C24_names : forall si n depth prefix support periodic ops op b, set_order si ->
  hea_digital si n depth prefix support periodic ops op = Some b -> NoDup (flat_map name_of (gates b)).
Proof.
  intros si n depth prefix support periodic ops op b Hs H. unfold hea_digital in H. set (s := match support with Some s => s | None => seq 0 n end) in *.
  destruct (rotations_digital si n depth prefix s ops 0) as [rl|] eqn:E1; [|discriminate]. cbn [obind] in H.
  destruct (entanglers_digital si n depth prefix s periodic op 0) as [el|] eqn:E2; [|discriminate]. injection H as <-.
  apply (rotations_some si Hs) in E1 as (R1 & _ & R3 & _). apply (entanglers_some si Hs) in E2 as (L1 & _ & _ & L4).
  cbn [gates]. rewrite flat_map_flat_map. rewrite flat_map_flat_map in R3, L4. eapply Permutation_NoDup'; [apply interleave_perm; congruence|]. rewrite R3, L4.
  destruct (parametric op); [|rewrite app_nil_r; apply rname_nodup].
  apply L_Ops.NoDup_app_intro; [apply rname_nodup|apply ename_nodup|]. intros x Hx Hy. apply in_map_iff in Hx as (a & <- & _), Hy as (c & E & _). exact (names_disjoint prefix a c (eq_sym E)).
Qed.
(** It is constructed exactly when there are two qubits or more and they are distinct. *)
Theorem C24_defined : forall si n depth prefix support periodic ops op, set_order si -> 0 < depth -> ops <> [] ->
  let s := match support with Some s => s | None => seq 0 n end in
  ((exists b, hea_digital si n depth prefix support periodic ops op = Some b) <-> 2 <= n /\ n <= length s /\ NoDup (firstn n s)).
Proof.
  intros si n depth prefix support periodic ops op Hs HD HO s. unfold hea_digital. fold s. split.
  - intros [b H]. destruct (rotations_digital si n depth prefix s ops 0) as [rl|] eqn:E1; [|discriminate]. cbn [obind] in H.
    destruct (entanglers_digital si n depth prefix s periodic op 0) as [el|] eqn:E2; [|discriminate].
    apply (rotations_some si Hs) in E1 as (_ & _ & _ & R4). apply (entanglers_some si Hs) in E2 as (_ & L2 & _ & _). destruct (R4 HD HO) as (A & _ & B). split; [apply L2, HD|auto].
  - intros (N2 & L & N). destruct (rotations_def si Hs n prefix s ops L ltac:(lia) N depth 0) as [rl ->]. cbn [obind]. destruct (entanglers_def si Hs n prefix s periodic op N2 L N depth 0) as [el ->]. eexists. reflexivity.
Qed.
(** With an odd number of qubits the ring is never closed, although periodic linking is requested. *)
Theorem C24_periodic_odd_refuted : exists si b, set_order si /\ hea_digital si 3 1 "theta" None true [RX_] E_CNOT = Some b /\
  forall g, In g (gates b) -> pair_of E_CNOT g <> Some (2, 0) /\ pair_of E_CNOT g <> Some (0, 2).
Proof.
  exists (nodup Nat.eq_dec). eexists. split; [intros l; split; [apply NoDup_nodup|intros q; apply nodup_In]|]. split; [reflexivity|].
  intros g Hg. simpl in Hg. destruct Hg as [<- | [<- | [<- | [<- | [<- | []]]]]]; simpl; split; discriminate.
Qed.
(** A single qubit is rejected. *)
Theorem C24_single_qubit_refuted : forall si prefix periodic ops op, set_order si -> ops <> [] -> hea_digital si 1 1 prefix None periodic ops op = None.
Proof.
  intros si prefix periodic ops op Hs HO. destruct (hea_digital si 1 1 prefix None periodic ops op) as [b|] eqn:E; [|reflexivity].
  destruct (proj1 (C24_defined si 1 1 prefix None periodic ops op Hs ltac:(lia) HO) (ex_intro _ b E)). lia.
Qed.
(** The digital-analog variant: the same rotations, and one evolution per layer, with distinct parameter names. *)
Theorem C24_sdaqc : forall si n depth prefix support ops gen b, set_order si ->
  hea_sDAQC si n depth prefix support ops gen = Some b ->
  let qs := firstn n (match support with Some s => s | None => seq 0 n end) in
  NoDup (flat_map name_of (gates b)) /\
  exists layers, length layers = depth /\ b = BChain (flat_map (fun l => [fst l; snd l]) layers) /\
    forall rotations evolution, In (rotations, evolution) layers ->
      map rotation_of (gates rotations) = map Some (list_prod ops qs) /\ exists x, evolution = BEvo gen (EVar x).
Proof.
  intros si n depth prefix support ops gen b Hs H qs. unfold hea_sDAQC in H. set (s := match support with Some s => s | None => seq 0 n end) in *.
  destruct (rotations_digital si n depth prefix s ops 0) as [rl|] eqn:E1; [|discriminate]. injection H as <-. apply (rotations_some si Hs) in E1 as (R1 & R2 & R3 & _).
  assert (LA : length (entanglers_analog depth prefix gen) = depth) by (unfold entanglers_analog; rewrite map_length; apply seq_length).
  split.
  - cbn [gates]. rewrite flat_map_flat_map. eapply Permutation_NoDup'; [apply interleave_perm; congruence|]. rewrite flat_map_flat_map in R3. rewrite R3.
    assert (EN : flat_map (fun x => flat_map name_of (gates x)) (entanglers_analog depth prefix gen) = map (fun d => (prefix ++ "_t_" ++ dec d)%string) (seq 0 depth)).
    { unfold entanglers_analog. induction (seq 0 depth) as [|d l IH]; [reflexivity|]. cbn [map flat_map]. rewrite IH. reflexivity. }
    rewrite EN. apply L_Ops.NoDup_app_intro; [apply rname_nodup| |].
    + apply FinFun.Injective_map_NoDup; [|apply seq_NoDup]. intros x y E. apply append_inj in E. simpl in E. injection E as E. apply dec_inj, E.
    + intros x Hx Hy. apply in_map_iff in Hx as (a & <- & _), Hy as (c & E & _). unfold rname in E. apply append_inj in E. simpl in E. injection E as E.
      destruct (dec_head a) as (ch & y & Ea & D). rewrite Ea in E. injection E as <- _. discriminate D.
  - exists (combine rl (entanglers_analog depth prefix gen)). split; [rewrite combine_length; lia|]. split; [rewrite interleave_flat by congruence; reflexivity|].
    intros r e Hin. split; [apply R2, (in_combine_l _ _ _ _ Hin)|]. apply in_combine_r in Hin. unfold entanglers_analog in Hin. apply in_map_iff in Hin as (d & <- & _). eexists. reflexivity.
Qed.
Example C24_case : exists b, hea_digital (nodup Nat.eq_dec) 4 2 "theta" (Some [3; 0; 5; 1]) true [RX_; RZ_] E_CRY = Some b.
Proof.
  apply (C24_defined (nodup Nat.eq_dec) 4 2 "theta" (Some [3; 0; 5; 1]) true [RX_; RZ_] E_CRY); [intros l; split; [apply NoDup_nodup|intros q; apply nodup_In]|lia|discriminate|].
  simpl. split; [lia|]. split; [lia|]. repeat constructor; simpl; intuition discriminate.
Qed.
Print Assumptions C24_layout.
Print Assumptions C24_names.
Print Assumptions C24_defined.
Print Assumptions C24_periodic_odd_refuted.
Print Assumptions C24_single_qubit_refuted.
Print Assumptions C24_sdaqc.
