(** C64: the circuit of a quantum convolutional network. *)
From Coq Require Import String Ascii Reals List Arith Bool Lia.
From Coquelicot Require Import Coquelicot.
From Coq Require Import List.
From Verif Require Import S_Ops S_Sets S_Den M_QubitSupport M_Block M_BlockOps M_Tensor M_Transpile M_Names M_Embedding M_FeatureMap M_QnnConfig M_Qcnn.
From Verif Require Import L_Loc L_Names L_Ops L_Den L_Support L_Transpile L_Overlap P_Embedding P_FeatureMap P_Hea P_ChainOps P_QnnConfig L_Diag.
Import ListNotations.
Open Scope string_scope.
Open Scope list_scope.
Open Scope nat_scope.

(** * Specification *)
(** The j-th qubit that takes part in layer l: qubits 2^l - 1, 2 2^l - 1, ...  There are n / 2^l of them. *)
Definition survivor (l j : nat) : nat := 2 ^ l * (j + 1) - 1.
(** The pairs of survivors that are convolved in a repetition: (0,1), (2,3), ...; in odd repetitions of the first two layers (1,2), (3,4), ... without the last survivor. *)
Definition cell_pairs (n l r : nat) : list (nat * nat) :=
  if (l <=? 1) && Nat.odd r
  then map (fun j => (survivor l (2 * j + 1), survivor l (2 * j + 2))) (seq 0 ((n / 2 ^ l - 2) / 2))
  else map (fun j => (survivor l (2 * j), survivor l (2 * j + 1))) (seq 0 (n / 2 ^ l / 2)).
(** The names of the parameters: one for each place, or with correlated parameters nine for each layer. *)
Definition theta (corr : bool) (l r p : nat) : string :=
  (if corr then "θ_" ++ dec l ++ "_" ++ dec (p mod 9) else "θ_" ++ dec l ++ "_" ++ dec r ++ "_" ++ dec p)%string.
(** The convolutional cell on control c and target t, with the parameters th 0, th 1, ... *)
Fixpoint rotations_on (ops : list rot) (c t : nat) (th : nat -> string) (p : nat) : list block :=
  match ops with [] => [] | o :: r => BRot o c (EVar (th p)) :: BRot o t (EVar (th (p + 1))) :: rotations_on r c t th (p + 2) end.
Definition cell (ent : nat -> nat -> block) (ops : list rot) (c t : nat) (th : nat -> string) (final : bool) : list block :=
  let k := length ops in
  rotations_on ops c t th 0 ++
  [ent t c; BRot RZ_ c (EVar (th (2 * k))); BRot RY_ t (EVar (th (2 * k + 1))); ent c t; BRot RY_ t (EVar (th (2 * k + 2))); ent t c] ++
  rotations_on ops c t th (2 * k + 3) ++ (if final then [ent c t] else []).
Definition cell_size (ops : list rot) : nat := 4 * length ops + 3.
(** The gates of a repetition, from cell number j on, and of a layer with d repetitions. *)
Fixpoint rep_gates (ent : nat -> nat -> block) (ops : list rot) (corr : bool) (l r : nat) (final : bool) (j : nat) (ps : list (nat * nat)) : list block :=
  match ps with
  | [] => []
  | (c, t) :: ps' => cell ent ops c t (fun p => theta corr l r (cell_size ops * j + p)) final ++ rep_gates ent ops corr l r final (j + 1) ps'
  end.
Definition layer_gates (ent : nat -> nat -> block) (ops : list rot) (corr : bool) (n l d : nat) : list block :=
  flat_map (fun r => rep_gates ent ops corr l r (r =? d - 1) 0 (cell_pairs n l r)) (seq 0 d).
(** A block does what the gates do one after the other, with the same parameters in the same places. *)
Definition performs (b : block) (gates : list block) : Prop := (forall rho, den rho b = den rho (BChain gates)) /\ bvars b = flat_map bvars gates.

(** * Lists *)
Lemma every_second_map {A} (f : nat -> A) : forall L s, every_second (map f (seq s L)) = map (fun j => f (s + 2 * j)) (seq 0 ((L + 1) / 2)).
Proof.
  intros L. induction L as [L IH] using lt_wf_ind. intros s. destruct L as [|[|L]]; [reflexivity|cbn; rewrite Nat.add_0_r; reflexivity|].
  cbn [seq map every_second]. rewrite IH by lia. replace ((S (S L) + 1) / 2) with (S ((L + 1) / 2)) by (replace (S (S L) + 1) with (1 * 2 + (L + 1)) by lia; rewrite Nat.div_add_l by lia; reflexivity).
  cbn [seq map]. f_equal; [f_equal; lia|]. rewrite <- seq_shift, map_map. apply map_ext. intros j. f_equal. lia.
Qed.
Lemma tl_map_seq {A} (f : nat -> A) s L : tl (map f (seq s L)) = map f (seq (S s) (L - 1)).
Proof. destruct L; cbn; [reflexivity|]. rewrite Nat.sub_0_r. reflexivity. Qed.
Lemma removelast_map_seq {A} (f : nat -> A) s L : removelast (map f (seq s L)) = map f (seq s (L - 1)).
Proof. destruct L as [|L]; [reflexivity|]. rewrite seq_S, map_app. cbn [map]. rewrite removelast_last. f_equal. f_equal. lia. Qed.
Lemma combine_map_seq {A} (f g : nat -> A) L M : L <= M -> combine (map f (seq 0 M)) (map g (seq 0 L)) = map (fun j => (f j, g j)) (seq 0 L).
Proof.
  intros H. replace M with (L + (M - L)) by lia. rewrite seq_app, map_app. generalize (seq (0 + L) (M - L)) as tail. intros tail. generalize (seq 0 L) as l.
  induction l as [|a l IH]; cbn; [destruct (map f tail); reflexivity|]. rewrite IH. reflexivity.
Qed.
Definition indices (n l : nat) : list nat := map (survivor l) (seq 0 (n / 2 ^ l)).
Lemma half_up L : L / 2 <= (L + 1) / 2.
Proof. apply Nat.div_le_mono; lia. Qed.
Lemma pairs_spec n l r : pairs l r (indices n l) = cell_pairs n l r.
Proof.
  unfold pairs, cell_pairs, indices, other_second. set (L := n / 2 ^ l). destruct ((l <=? 1) && Nat.odd r).
  - rewrite !tl_map_seq, !removelast_map_seq, !every_second_map. rewrite combine_map_seq.
    2: { apply Nat.div_le_mono; lia. }
    destruct (Nat.le_gt_cases L 2) as [H|H].
    + destruct L as [|[|[|L]]]; try reflexivity; lia.
    + replace (L - 1 - 1 - 1 + 1) with (L - 2) by lia. apply map_ext. intros j. f_equal; f_equal; lia.
  - rewrite tl_map_seq, !every_second_map. destruct L as [|L]; [reflexivity|]. replace (S L - 1 + 1) with (S L) by lia. rewrite combine_map_seq by (apply half_up). apply map_ext. intros j. f_equal; f_equal; lia.
Qed.
Lemma pow2_pos l : 0 < 2 ^ l. Proof. induction l; cbn; lia. Qed.
Lemma next_indices n l : other_second (indices n l) = indices n (l + 1).
Proof.
  unfold other_second, indices. rewrite tl_map_seq, every_second_map. pose proof (pow2_pos l) as P.
  assert (E : n / 2 ^ (l + 1) = n / 2 ^ l / 2) by (rewrite Nat.div_div by lia; f_equal; rewrite Nat.add_1_r; cbn; lia). rewrite E. set (L := n / 2 ^ l).
  replace (L - 1 + 1) with (if L =? 0 then 1 else L) by (destruct (Nat.eqb_spec L 0); lia). destruct (Nat.eqb_spec L 0) as [->|]; [reflexivity|].
  apply map_ext. intros j. unfold survivor. rewrite Nat.add_1_r with (n := l). cbn [Nat.pow]. f_equal. nia.
Qed.
Lemma indices_0 n : indices n 0 = seq 0 n.
Proof. unfold indices. cbn [Nat.pow]. rewrite Nat.div_1_r. erewrite map_ext; [apply map_id|]. intros j. unfold survivor. cbn. lia. Qed.

(** * Names *)
Lemma theta_eq corr l r p : theta corr l r p = param_name l r p corr. Proof. reflexivity. Qed.
Lemma dec_sep_s i j (y z : string) : (dec i ++ "_" ++ y)%string = (dec j ++ "_" ++ z)%string -> i = j /\ y = z.
Proof. intros H. pose proof (dec_sep _ _ _ _ H) as ->. split; [reflexivity|]. apply (append_inj (dec j)), (append_inj "_") in H. exact H. Qed.
Lemma theta_inj l r p l' r' p' : theta false l r p = theta false l' r' p' -> l = l' /\ r = r' /\ p = p'.
Proof. unfold theta. intros H. apply (append_inj "θ_") in H. apply dec_sep_s in H as [-> H]. apply dec_sep_s in H as [-> H]. apply dec_inj in H. auto. Qed.
Lemma key_inj l r l' r' : counter_key l r = counter_key l' r' -> l = l' /\ r = r'.
Proof. unfold counter_key. intros H. apply (append_inj "param_index_") in H. apply dec_sep_s in H as [-> H]. apply dec_inj in H. auto. Qed.

(** * Gates *)
Lemma performs_list : forall bs gss, Forall2 performs bs gss -> performs (BChain bs) (concat gss) /\ performs (BKron bs) (concat gss).
Proof.
  intros bs gss F. assert (E : (forall rho, dchain rho bs = dchain rho (concat gss)) /\ flat_map bvars bs = flat_map bvars (concat gss)).
  { induction F as [|b gs bs gss [P1 P2] F [I1 I2]]; [split; reflexivity|]. cbn [concat flat_map]. split.
    - intros rho. rewrite L_Den.dchain_app, <- I1, <- (L_Den.den_chain rho gs), <- P1. reflexivity.
    - rewrite flat_map_app, <- I2, P2. reflexivity. }
  destruct E as [E1 E2]. split; split; try exact E2; exact E1.
Qed.
Lemma performs_self b : performs b [b].
Proof. split; [intros rho; rewrite L_Den.den_chain; cbn [dchain fold_right]; rewrite seqop_id_r; reflexivity|cbn; rewrite app_nil_r; reflexivity]. Qed.
Lemma performs_app a b ga gb : performs (BChain a) ga -> performs (BChain b) gb -> performs (BChain (a ++ b)) (ga ++ gb).
Proof.
  intros [A1 A2] [B1 B2]. cbn [bvars] in A2, B2. split; [intros rho; rewrite !L_Den.den_chain, !L_Den.dchain_app, <- !L_Den.den_chain, A1, B1; reflexivity|]. cbn [bvars]. rewrite !flat_map_app, A2, B2. reflexivity.
Qed.
Lemma performs_nil : performs (BChain []) []. Proof. split; reflexivity. Qed.
Lemma performs_cons b bs g gs : performs b g -> performs (BChain bs) gs -> performs (BChain (b :: bs)) (g ++ gs).
Proof.
  intros [A1 A2] [B1 B2]. cbn [bvars] in B2. split; [intros rho; rewrite L_Den.den_chain; cbn [dchain fold_right]; rewrite A1, !L_Den.den_chain, L_Den.dchain_app; f_equal; rewrite <- L_Den.den_chain; apply (B1 rho)|]. cbn [bvars flat_map]. rewrite flat_map_app, A2, B2. reflexivity.
Qed.

Section Cells.
  Variable si : list nat -> list nat.
  Hypothesis Hs : set_order si.
  Variable ent : nat -> nat -> block.
  Variable ops : list rot.
  Variable corr : bool.
  Variable n : nat.
  Notation op_gates := (op_gates si corr).
  Notation create_single_W := (create_single_W si ent ops corr n).
  Notation cells := (cells si ent ops corr n).
  Notation repetitions := (repetitions si ent ops corr n).
  Notation create_conv_layer := (create_conv_layer si ent ops corr n).
  Notation conv_layers := (conv_layers si ent ops corr n).

  Lemma padded (qs : list nat) (l : list block) b : mk_kron si (map (BPrim PI_) qs ++ l) = Some b -> performs b l.
  Proof.
    intros H. apply (mk_kron_some si Hs) in H as (-> & _). split; [intros rho; rewrite L_Den.den_kron, L_Den.den_chain, L_Den.dchain_app, ids_den, seqop_id_l; reflexivity|].
    cbn [bvars]. rewrite flat_map_app. assert (E : flat_map bvars (map (BPrim PI_) qs) = []) by (induction qs; [reflexivity|assumption]). rewrite E. reflexivity.
  Qed.
  Lemma op_gates_spec qs l r c t : forall os pos gs, op_gates (map (BPrim PI_) qs) os l r c t pos = Some gs -> performs (BChain gs) (rotations_on os c t (theta corr l r) pos).
  Proof.
    induction os as [|o os IH]; intros pos gs H; cbn [M_Qcnn.op_gates] in H; [injection H as <-; apply performs_nil|].
    destruct (mk_kron si _) as [k|] eqn:E; [|discriminate]. cbn [obind] in H. destruct (op_gates _ os l r c t (pos + 2)) as [rest|] eqn:E2; [|discriminate]. cbn [obind] in H. injection H as <-.
    cbn [rotations_on]. apply (performs_cons k rest [_; _] _); [exact (padded _ _ _ E)|apply IH, E2].
  Qed.
  Lemma rotations_shift th s c t : forall os p, rotations_on os c t (fun q => th (s + q)) p = rotations_on os c t th (s + p).
  Proof. induction os as [|o os IH]; intros p; [reflexivity|]. cbn [rotations_on]. rewrite IH. rewrite !Nat.add_assoc. reflexivity. Qed.

  Definition counter (cnt : list (string * nat)) (l r : nat) : nat := match get cnt (counter_key l r) with Some p => p | None => 0 end.
  Lemma single_W_spec cnt l r m c t sp b cnt' : create_single_W cnt l r m c t sp = Some (b, cnt') ->
    performs b (cell ent ops c t (fun p => theta corr l r (counter cnt l r + p)) (r =? m - 1)) /\
    cnt' = set cnt (counter_key l r) (counter cnt l r + cell_size ops).
  Proof.
    intros H. unfold M_Qcnn.create_single_W in H. fold (counter cnt l r) in H. unfold padding in H. set (qs := filter _ _) in H. set (p0 := counter cnt l r) in *.
    destruct (op_gates (map (BPrim PI_) qs) ops l r c t p0) as [first|] eqn:E1; [|discriminate]. cbn [obind] in H.
    destruct (mk_kron si _) as [k1|] eqn:E2 in H; [|discriminate]. cbn [obind] in H. destruct (mk_kron si _) as [k2|] eqn:E3 in H; [|discriminate]. cbn [obind] in H.
    destruct (op_gates _ ops l r c t _) as [last|] eqn:E4 in H; [|discriminate]. cbn [obind] in H. injection H as <- <-. split; [|f_equal; unfold cell_size; lia].
    apply padded in E2, E3. apply op_gates_spec in E1, E4. unfold cell. rewrite !rotations_shift. rewrite Nat.add_0_r.
    apply performs_app; [exact E1|].
    apply (performs_cons _ _ [_]); [apply performs_self|]. apply (performs_cons _ _ [_; _]).
    { replace (p0 + (2 * length ops)) with (p0 + 2 * length ops) by reflexivity. replace (p0 + (2 * length ops + 1)) with (p0 + 2 * length ops + 1) by lia. exact E2. }
    apply (performs_cons _ _ [_]); [apply performs_self|]. apply (performs_cons _ _ [_]).
    { replace (p0 + (2 * length ops + 2)) with (p0 + 2 * length ops + 2) by lia. destruct E3 as [A B]. split; [|exact B]. intros rho. rewrite A, !L_Den.den_chain. cbn [dchain fold_right]. rewrite prim_I_den, seqop_id_l. reflexivity. }
    apply (performs_cons _ _ [_]); [apply performs_self|]. apply performs_app.
    { replace (p0 + (2 * length ops + 3)) with (p0 + 2 * length ops + 3) by lia. exact E4. }
    destruct (r =? m - 1); [apply (performs_cons _ _ [_] []); [apply performs_self|apply performs_nil]|apply performs_nil].
  Qed.
  Lemma counter_set cnt l r v l' r' : counter (set cnt (counter_key l r) v) l' r' = if (l =? l') && (r =? r') then v else counter cnt l' r'.
  Proof.
    unfold counter. rewrite get_set. destruct (String.eqb_spec (counter_key l r) (counter_key l' r')) as [E|E].
    - apply key_inj in E as [-> ->]. rewrite !Nat.eqb_refl. reflexivity.
    - destruct (Nat.eqb_spec l l') as [->|]; [|reflexivity]. destruct (Nat.eqb_spec r r') as [->|]; [contradiction|reflexivity].
  Qed.
  Lemma cells_spec l r m : forall ps cnt j ws cnt', counter cnt l r = cell_size ops * j -> cells cnt l r m ps = Some (ws, cnt') ->
    performs (BChain ws) (rep_gates ent ops corr l r (r =? m - 1) j ps) /\ performs (BKron ws) (rep_gates ent ops corr l r (r =? m - 1) j ps) /\ length ws = length ps /\
    forall l' r', (l', r') <> (l, r) -> counter cnt' l' r' = counter cnt l' r'.
  Proof.
    induction ps as [|[c t] ps IH]; intros cnt j ws cnt' C H; cbn [M_Qcnn.cells] in H.
    - injection H as <- <-. split; [apply performs_nil|]. split; [split; reflexivity|]. split; reflexivity.
    - destruct (create_single_W cnt l r m c t l) as [[w cnt1]|] eqn:E; [|discriminate]. cbn [obind fst snd] in H. destruct (cells cnt1 l r m ps) as [[ws' cnt2]|] eqn:E2; [|discriminate]. cbn [obind fst snd] in H. injection H as <- <-.
      apply single_W_spec in E as [P ->]. rewrite C in P. assert (C' : counter (set cnt (counter_key l r) (counter cnt l r + cell_size ops)) l r = cell_size ops * (j + 1)) by (rewrite counter_set, !Nat.eqb_refl, C; cbn [andb]; lia). destruct (IH _ (j + 1) _ _ C' E2) as (Q1 & _ & Q2 & Q3).
      assert (R : performs (BChain (w :: ws')) (rep_gates ent ops corr l r (r =? m - 1) j ((c, t) :: ps))) by (cbn [rep_gates]; apply performs_cons; assumption).
      split; [exact R|]. split; [exact R|]. split; [cbn; congruence|]. intros l' r' N. rewrite Q3 by exact N. rewrite counter_set. destruct (Nat.eqb_spec l l') as [->|]; [|reflexivity]. destruct (Nat.eqb_spec r r') as [->|]; [congruence|reflexivity].
  Qed.
  Lemma repetitions_spec l m idx : forall todo cnt r bs cnt', (forall r', r <= r' -> counter cnt l r' = 0) -> repetitions todo cnt l r m idx = Some (bs, cnt') ->
    performs (BChain bs) (flat_map (fun r => rep_gates ent ops corr l r (r =? m - 1) 0 (pairs l r idx)) (seq r todo)) /\ forall l' r', l' <> l -> counter cnt' l' r' = counter cnt l' r'.
  Proof.
    induction todo as [|todo IH]; intros cnt r bs cnt' C H; cbn [M_Qcnn.repetitions] in H.
    - injection H as <- <-. split; [apply performs_nil|reflexivity].
    - destruct (cells cnt l r m (pairs l r idx)) as [[ws cnt1]|] eqn:E; [|discriminate]. cbn [obind fst snd] in H.
      destruct (cells_spec l r m _ cnt 0 ws cnt1 ltac:(rewrite C; lia) E) as (P1 & P2 & _ & Q).
      destruct (if l <=? 1 then _ else _) as [bs0|] eqn:E1 in H; [|discriminate]. cbn [obind] in H. destruct (repetitions todo cnt1 l (r + 1) m idx) as [[rest cnt2]|] eqn:E2; [|discriminate]. cbn [obind fst snd] in H. injection H as <- <-.
      assert (P : performs (BChain bs0) (rep_gates ent ops corr l r (r =? m - 1) 0 (pairs l r idx))).
      { destruct (l <=? 1); [|injection E1 as <-; exact P1]. destruct (mk_kron si ws) as [k|] eqn:K; [|discriminate]. injection E1 as <-. apply (mk_kron_some si Hs) in K as (-> & _). rewrite <- (app_nil_r (rep_gates _ _ _ _ _ _ _ _)). apply performs_cons; [exact P2|apply performs_nil]. }
      destruct (IH cnt1 (r + 1) rest cnt2) as [I1 I2]; [|exact E2|].
      { intros r' Hr. rewrite Q by (intros X; injection X as X; lia). apply C. lia. }
      split; [cbn [seq flat_map]; rewrite Nat.add_1_r in I1; apply performs_app; assumption|]. intros l' r' N. rewrite I2 by exact N. apply Q. intros X. injection X as X _. contradiction.
  Qed.
  Lemma conv_layer_spec l m idx cnt b cnt' : (forall r', counter cnt l r' = 0) -> create_conv_layer l m idx cnt = Some (b, cnt') ->
    performs b (flat_map (fun r => rep_gates ent ops corr l r (r =? m - 1) 0 (pairs l r idx)) (seq 0 m)) /\ forall l' r', l' <> l -> counter cnt' l' r' = counter cnt l' r'.
  Proof.
    intros C H. unfold M_Qcnn.create_conv_layer in H. destruct (repetitions m cnt l 0 m idx) as [[bs c]|] eqn:E; [|discriminate]. cbn [obind fst snd] in H. injection H as <- <-.
    destruct (repetitions_spec l m idx m cnt 0 bs c ltac:(intros; apply C) E) as [P Q]. split; [|exact Q]. destruct (l <=? 1); [|exact P].
    set (g := flat_map _ _) in *. rewrite <- (app_nil_r g). apply performs_cons; [exact P|apply performs_nil].
  Qed.
  Lemma conv_layers_spec : forall depth l cnt ls, (forall l' r', l <= l' -> counter cnt l' r' = 0) -> conv_layers l depth (indices n l) cnt = Some ls ->
    Forall2 (fun ld b => performs b (layer_gates ent ops corr n (fst ld) (snd ld))) (combine (seq l (length depth)) depth) ls.
  Proof.
    induction depth as [|d depth IH]; intros l cnt ls C H; cbn [M_Qcnn.conv_layers] in H; [injection H as <-; constructor|].
    destruct (length (indices n l) <? 2); [discriminate|]. destruct (create_conv_layer l d (indices n l) cnt) as [[b cnt1]|] eqn:E; [|discriminate]. cbn [obind fst snd] in H. rewrite next_indices in H.
    destruct (conv_layers (l + 1) depth (indices n (l + 1)) cnt1) as [rest|] eqn:E2; [|discriminate]. cbn [obind] in H. injection H as <-.
    destruct (conv_layer_spec l d (indices n l) cnt b cnt1 ltac:(intros; apply C; lia) E) as [P Q]. cbn [length seq combine]. constructor.
    - cbn [fst snd]. unfold layer_gates. rewrite (flat_map_ext _ (fun r => rep_gates ent ops corr l r (r =? d - 1) 0 (pairs l r (indices n l)))); [exact P|]. intros r. rewrite pairs_spec. reflexivity.
    - rewrite <- Nat.add_1_r. apply (IH (l + 1) cnt1); [|exact E2]. intros l' r' Hl. rewrite Q by lia. apply C. lia.
  Qed.
End Cells.

(** * The feature map *)
Lemma nth_combine {A B} : forall k (a : list A) (b : list B) x y, nth_error a k = Some x -> nth_error b k = Some y -> nth_error (combine a b) k = Some (x, y).
Proof. induction k as [|k IH]; intros [|u a] [|v b] x y Q S; try discriminate; cbn in *; [congruence|]. apply IH; assumption. Qed.
Lemma F2_nth {A B} (R : A -> B -> Prop) : forall l l', Forall2 R l l' -> forall i a b, nth_error l i = Some a -> nth_error l' i = Some b -> R a b.
Proof. induction 1 as [|x y l l' E F IH]; intros [|i] a b P Q; try discriminate; cbn in P, Q; [congruence|]. exact (IH i a b P Q). Qed.
Section Features.
  Variable si : list nat -> list nat.
  Hypothesis Hs : set_order si.
  Variable n : nat.
  (** The j-th input has the qubits from start j on: the first n mod m inputs have one more. *)
  Definition share_size (m i : nat) : nat := if i <? n mod m then n / m + 1 else n / m.
  Lemma supports_spec m : forall todo i start, length (input_supports n todo i start m) = todo /\
    concat (input_supports n todo i start m) = seq start (list_sum (map (share_size m) (seq i todo))) /\
    map (@length nat) (input_supports n todo i start m) = map (share_size m) (seq i todo).
  Proof.
    induction todo as [|todo IH]; intros i start; [repeat split|]. cbn [input_supports]. fold (share_size m i). destruct (IH (i + 1) (start + share_size m i)) as (A & B & D).
    split; [cbn; rewrite A; reflexivity|]. split.
    - cbn [concat seq map list_sum fold_right]. rewrite B. rewrite seq_app, Nat.add_1_r. reflexivity.
    - cbn [map seq]. rewrite D, seq_length, Nat.add_1_r. reflexivity.
  Qed.
  Lemma share_sum m : 0 < m -> list_sum (map (share_size m) (seq 0 m)) = n.
  Proof.
    intros M. assert (E : forall k, list_sum (map (share_size m) (seq 0 k)) = k * (n / m) + Nat.min k (n mod m)).
    { induction k as [|k IH]; [reflexivity|]. rewrite seq_S, map_app, list_sum_app, IH. cbn [map list_sum fold_right]. unfold share_size. rewrite Nat.add_0_l. destruct (Nat.ltb_spec k (n mod m)); lia. }
    rewrite E. pose proof (Nat.mod_upper_bound n m ltac:(lia)). rewrite Nat.min_r by lia. symmetry. apply Nat.div_mod. lia.
  Qed.
  Lemma shares_in_order m : 0 < m -> concat (input_supports n m 0 0 m) = seq 0 n.
  Proof. intros M. destruct (supports_spec m m 0 0) as (_ & -> & _). rewrite share_sum by exact M. reflexivity. Qed.

  (** Every input is encoded on its own share of the qubits; the shares follow each other, and the first n mod m of them have one qubit more. *)
  Theorem C64_feature_map : forall m basis gate rho fm, create_feature_map si n m basis gate rho = Some fm ->
    exists shares parts, fm = BKron parts /\ length shares = m /\ concat shares = seq 0 n /\ map (@length nat) shares = map (fun i => if i <? n mod m then n / m + 1 else n / m) (seq 0 m) /\
    length (qcnn_inputs m) = m /\ length parts = m /\
    forall i name share part, nth_error (qcnn_inputs m) i = Some name -> nth_error shares i = Some share -> nth_error parts i = Some part ->
      name = ("φ_" ++ dec i)%string /\ exists gates, feature_map (length share) (Some share) basis CONSTANT None None None None (rho name) = Some gates /\
      part = BKron (map (fun qa => BRot gate (fst qa) (ECst (RtoC (snd qa)))) gates) /\ map fst gates = share.
  Proof.
    intros m basis gate rho fm H. unfold create_feature_map in H. destruct (Nat.eqb_spec m 0) as [|M]; [discriminate|]. destruct (osequence _) as [parts|] eqn:E; [|discriminate]. cbn [obind] in H.
    apply (mk_kron_some si Hs) in H as (-> & _). destruct (supports_spec m m 0 0) as (L1 & _ & L3). exists (input_supports n m 0 0 m), parts. split; [reflexivity|]. split; [exact L1|]. split; [apply shares_in_order; lia|].
    split; [exact L3|]. split; [unfold qcnn_inputs; rewrite map_length, seq_length; reflexivity|]. apply osequence_map_some in E. split; [rewrite <- (F2_length _ _ _ E), combine_length, seq_length, L1; lia|].
    intros i name share part N S P. unfold qcnn_inputs in N. rewrite nth_error_map in N. destruct (nth_error (seq 0 m) i) as [i'|] eqn:Q; [|discriminate]. cbn in N. injection N as <-.
    assert (I' : i' = i). { assert (i < m) by (rewrite <- (seq_length m 0); apply nth_error_Some; congruence). apply (nth_error_nth _ _ 0) in Q. rewrite seq_nth in Q by assumption. lia. } subst i'. split; [reflexivity|].
    assert (C : nth_error (combine (seq 0 m) (input_supports n m 0 0 m)) i = Some (i, share)).
    { apply nth_combine; assumption. }
    pose proof (F2_nth _ _ _ E i _ _ C P) as X. cbv beta iota in X. destruct (feature_map (length share) (Some share) basis CONSTANT None None None None (rho ("φ_" ++ dec i)%string)) as [gates|] eqn:F; [|discriminate]. cbn [obind] in X. exists gates. split; [exact F|].
    apply (mk_kron_some si Hs) in X as (-> & _). split; [reflexivity|]. destruct (C26_gates _ _ _ _ _ _ _ _ _ _ F) as (s' & v & _ & S2 & _ & _ & MF & _). rewrite MF. apply S2. reflexivity.
  Qed.
  Theorem C64_feature_map_defined : forall m basis gate rho, lo (range_or basis None) <> hi (range_or basis None) ->
    ((exists fm, create_feature_map si n m basis gate rho = Some fm) <-> 0 < m <= n).
  Proof.
    intros m basis gate rho HR. destruct (supports_spec m m 0 0) as (L1 & _ & L3). split.
    - intros [fm H]. pose proof H as H0. unfold create_feature_map in H. destruct (Nat.eqb_spec m 0) as [|M]; [discriminate|]. split; [lia|]. destruct (osequence _) as [parts|] eqn:E; [|discriminate]. cbn [obind] in H.
      destruct (Nat.le_gt_cases m n) as [|G]; [assumption|exfalso]. (* the last share is empty *)
      assert (NE : nth_error (input_supports n m 0 0 m) (m - 1) = Some []).
      { destruct (nth_error (input_supports n m 0 0 m) (m - 1)) as [s|] eqn:Q; [|apply nth_error_None in Q; lia]. assert (Z0 := f_equal (fun l => nth_error l (m - 1)) L3). cbn beta in Z0. rewrite !nth_error_map, Q in Z0. cbn [option_map] in Z0.
        destruct (nth_error (seq 0 m) (m - 1)) as [j|] eqn:QJ; [|discriminate]. cbn in Z0. injection Z0 as Z0. assert (j = m - 1). { apply (nth_error_nth _ _ 0) in QJ. rewrite seq_nth in QJ by lia. lia. } subst j.
        unfold share_size in Z0. rewrite Nat.mod_small, Nat.div_small in Z0 by lia. destruct (Nat.ltb_spec (m - 1) n); [lia|]. destruct s; [reflexivity|discriminate]. }
      apply osequence_map_some in E. assert (I : In (m - 1, []) (combine (seq 0 m) (input_supports n m 0 0 m))).
      { assert (Q : nth_error (seq 0 m) (m - 1) = Some (m - 1)). { rewrite (nth_error_nth' _ 0) by (rewrite seq_length; lia). rewrite seq_nth by lia. reflexivity. }
        apply (nth_error_In _ (m - 1)), nth_combine; assumption. }
      assert (X : exists part, obind (feature_map 0 (Some []) basis CONSTANT None None None None (rho ("φ_" ++ dec (m - 1))%string)) (fun gates => mk_kron si (map (fun qa => BRot gate (fst qa) (ECst (RtoC (snd qa)))) gates)) = Some part).
      { apply In_nth_error in I as [k I]. destruct (nth_error parts k) as [part|] eqn:Q; [exists part; exact (F2_nth _ _ _ E k _ _ I Q)|]. apply nth_error_None in Q. rewrite <- (F2_length _ _ _ E) in Q. assert (k < length (combine (seq 0 m) (input_supports n m 0 0 m))) by (apply nth_error_Some; congruence). lia. }
      destruct X as [part X]. destruct (feature_map 0 _ _ _ _ _ _ _ _) as [gates|] eqn:F in X; [|discriminate]. cbn [obind] in X. destruct (C26_gates _ _ _ _ _ _ _ _ _ _ F) as (s' & v & _ & S2 & _ & _ & MF & _). rewrite (S2 [] eq_refl) in MF.
      apply (mk_kron_some si Hs) in X as (_ & X & _). destruct gates; [apply X; reflexivity|discriminate MF].
    - intros [M G]. unfold create_feature_map. destruct (Nat.eqb_spec m 0) as [|_]; [lia|].
      assert (NN : NoDup (concat (input_supports n m 0 0 m))) by (rewrite shares_in_order by exact M; apply seq_NoDup).
      assert (SZ : forall s, In s (input_supports n m 0 0 m) -> s <> []).
      { intros s I ->. apply (in_map (@length nat)) in I. rewrite L3 in I. apply in_map_iff in I as (j & Z0 & _). unfold share_size in Z0. assert (1 <= n / m) by (apply Nat.div_le_lower_bound; lia). change (length (@nil nat)) with 0 in Z0. destruct (j <? n mod m); lia. }
      assert (X : forall sup i, sup <> [] -> NoDup sup -> exists b, obind (feature_map (length sup) (Some sup) basis CONSTANT None None None None (rho ("φ_" ++ dec i)%string)) (fun gates => mk_kron si (map (fun qa => BRot gate (fst qa) (ECst (RtoC (snd qa)))) gates)) = Some b /\ S_Den.qubits b = sup).
      { intros sup i NE ND. destruct (feature_map (length sup) (Some sup) basis CONSTANT None None None None (rho ("φ_" ++ dec i)%string)) as [gs|] eqn:F.
        - cbn [obind]. destruct (C26_gates _ _ _ _ _ _ _ _ _ _ F) as (s' & v & _ & S2 & _ & _ & MF & _). specialize (S2 sup eq_refl). subst s'. exists (BKron (map (fun qa => BRot gate (fst qa) (ECst (RtoC (snd qa)))) gs)). split; [|cbn [S_Den.qubits]; rewrite gates_qubits; exact MF].
          apply (proj1 (mk_kron_spec si Hs _)). split; [destruct gs; [cbn in MF; congruence|discriminate]|]. apply rot_disjoint. rewrite MF. exact ND.
        - exfalso. unfold feature_map in F. rewrite Nat.eqb_refl in F. destruct (fm_parameter_scaling basis None None _) eqn:Q in F; [discriminate|]. apply C26_empty_range in Q. exact (HR Q). }
      revert NN SZ L1. generalize (input_supports n m 0 0 m) as sups. intros sups NN SZ L1.
      assert (Y : forall idx (sups : list (list nat)), length idx = length sups -> NoDup (concat sups) -> (forall s, In s sups -> s <> []) ->
        exists parts, osequence (map (fun is : nat * list nat => let '(i, support) := is in obind (feature_map (length support) (Some support) basis CONSTANT None None None None (rho ("φ_" ++ dec i)%string)) (fun gates => mk_kron si (map (fun qa => BRot gate (fst qa) (ECst (RtoC (snd qa)))) gates))) (combine idx sups)) = Some parts /\ map S_Den.qubits parts = sups).
      { clear - X. induction idx as [|i idx IH]; intros [|s sups] L N Z; try discriminate L; [exists []; split; reflexivity|]. cbn [concat] in N. destruct (L_Loc.NoDup_app_inv _ _ N) as (N1 & N2 & _).
        destruct (X s i (Z s (or_introl eq_refl)) N1) as (b & E & Q). destruct (IH sups) as (parts & E' & Q'); [cbn in L; lia|exact N2|intros s' I; apply Z; right; exact I|]. exists (b :: parts). split; [|cbn; congruence].
        cbn [combine map osequence]. rewrite E, E'. reflexivity. }
      destruct (Y (seq 0 m) sups) as (parts & E & Q); [rewrite seq_length; congruence|exact NN|exact SZ|]. rewrite E. cbn [obind]. exists (BKron parts). apply (proj1 (mk_kron_spec si Hs _)). split; [intros ->; cbn in Q; subst sups; cbn in L1; lia|].
      clear - NN Q. revert sups NN Q. induction parts as [|b parts IH]; intros sups NN Q; [constructor|]. destruct sups as [|s sups]; [discriminate|]. cbn in Q. injection Q as Q1 Q2. cbn [concat] in NN. destruct (L_Loc.NoDup_app_inv _ _ NN) as (N1 & N2 & N3). constructor; [|apply (IH sups N2 Q2)].
      apply Forall_forall. intros b' I q H1 H2. subst s. apply (N3 q H1). apply in_concat. exists (S_Den.qubits b'). split; [rewrite <- Q2; apply in_map, I|exact H2].
  Qed.
End Features.

(** * The circuit *)
Section Circuit.
  Variable si : list nat -> list nat.
  Hypothesis Hs : set_order si.
  Variable ent : nat -> nat -> block.
  Variable ops : list rot.
  Variable corr : bool.
  Variable n : nat.
  Notation circuit := (qcnn_circuit si ent ops corr n).

  Lemma circuit_parts m depth basis gate rho circ : circuit m depth basis gate rho = Some circ ->
    exists fm layers, create_feature_map si n m basis gate rho = Some fm /\ conv_layers si ent ops corr n 0 depth (indices n 0) [] = Some layers /\ circ = BChain [fm; BChain layers] /\
      4 <= n /\ Nat.even n = true /\ Forall (fun d => Nat.odd d = true) depth /\ nqubits si circ <= n.
  Proof.
    intros H. unfold qcnn_circuit in H. destruct (Nat.ltb_spec n 4) as [|N]; [discriminate|]. destruct (Nat.odd n) eqn:O; [discriminate|]. destruct (existsb Nat.even depth) eqn:E; [discriminate|]. cbn [orb] in H.
    destruct (create_feature_map si n m basis gate rho) as [fm|]; [|discriminate]. cbn [obind] in H. destruct (conv_layers si ent ops corr n 0 depth (seq 0 n) []) as [ls|] eqn:E2; [|discriminate]. cbn [obind] in H.
    exists fm, ls. unfold quantum_circuit in H. destruct (Nat.ltb_spec n (nqubits si (BChain [fm; BChain ls]))) as [|L]; [discriminate|]. injection H as <-. rewrite indices_0. repeat split; auto.
    - unfold Nat.odd in O. apply negb_false_iff in O. exact O.
    - apply Forall_forall. intros d I. unfold Nat.odd. destruct (Nat.even d) eqn:V; [|reflexivity]. assert (existsb Nat.even depth = true) by (apply existsb_exists; exists d; auto). congruence.
  Qed.

  (** The circuit is the feature map followed by the layers; layer l does what [layer_gates] lists. *)
  Theorem C64_circuit : forall m depth basis gate rho circ, circuit m depth basis gate rho = Some circ ->
    exists fm layers, circ = BChain [fm; BChain layers] /\ create_feature_map si n m basis gate rho = Some fm /\ length layers = length depth /\
    forall l d layer, nth_error depth l = Some d -> nth_error layers l = Some layer ->
      (forall val, den val layer = den val (BChain (layer_gates ent ops corr n l d))) /\ bvars layer = flat_map bvars (layer_gates ent ops corr n l d).
  Proof.
    intros m depth basis gate rho circ H. destruct (circuit_parts _ _ _ _ _ _ H) as (fm & ls & F & L & -> & _). exists fm, ls. split; [reflexivity|]. split; [exact F|].
    apply (conv_layers_spec si Hs) in L; [|intros; reflexivity]. split; [rewrite <- (F2_length _ _ _ L), combine_length, seq_length; lia|].
    intros l d layer D Y. assert (Q : nth_error (seq 0 (length depth)) l = Some l). { assert (l < length depth) by (apply nth_error_Some; congruence). rewrite (nth_error_nth' _ 0) by (rewrite seq_length; assumption). rewrite seq_nth by assumption. reflexivity. }
    exact (F2_nth _ _ _ L l _ _ (nth_combine _ _ _ _ _ Q D) Y).
  Qed.

  (** ** Which qubits *)
  Hypothesis Hent : forall a b q, In q (S_Den.qubits (ent a b)) -> q = a \/ q = b.
  (** The qubits that take part in layer l: every 2^l-th. *)
  Definition takes_part (l q : nat) : Prop := q < n /\ (q + 1) mod 2 ^ l = 0.
  Lemma survivor_part l j : j < n / 2 ^ l -> takes_part l (survivor l j).
  Proof.
    intros H. pose proof (pow2_pos l) as P. assert (A : 2 ^ l * (j + 1) <= n). { pose proof (Nat.mul_div_le n (2 ^ l) ltac:(lia)). nia. }
    unfold takes_part, survivor. assert (B : 1 <= 2 ^ l * (j + 1)) by nia. split; [lia|]. replace (2 ^ l * (j + 1) - 1 + 1) with ((j + 1) * 2 ^ l) by lia. apply Nat.mod_mul. lia.
  Qed.
  Lemma part_survivor l q : takes_part l q -> exists j, j < n / 2 ^ l /\ q = survivor l j.
  Proof.
    intros [H M]. pose proof (pow2_pos l) as P. apply Nat.mod_divides in M; [|lia]. destruct M as [c M]. assert (C : c <> 0) by (intros ->; lia). exists (c - 1). unfold survivor. replace (c - 1 + 1) with c by lia. split; [|lia].
    assert (c <= n / 2 ^ l); [|lia]. apply Nat.div_le_lower_bound; lia.
  Qed.
  (** Half of the qubits go on to the next layer. *)
  Lemma part_next l l' q : l <= l' -> takes_part l' q -> takes_part l q.
  Proof.
    intros L [H M]. split; [exact H|]. pose proof (pow2_pos l) as P. pose proof (pow2_pos l') as P'. apply Nat.mod_divides in M; [|lia]. destruct M as [c M]. apply Nat.mod_divides; [lia|]. exists (2 ^ (l' - l) * c). rewrite M. replace l' with (l + (l' - l)) at 1 by lia. rewrite Nat.pow_add_r. lia.
  Qed.
  Lemma pair_in l r c t : In (c, t) (cell_pairs n l r) -> exists j, j + 1 < n / 2 ^ l /\ c = survivor l j /\ t = survivor l (j + 1).
  Proof.
    unfold cell_pairs. set (L := n / 2 ^ l). assert (H2 : 2 * (L / 2) <= L) by (apply Nat.mul_div_le; lia). assert (H3 : 2 * ((L - 2) / 2) <= L - 2) by (apply Nat.mul_div_le; lia).
    destruct ((l <=? 1) && Nat.odd r); intros I; apply in_map_iff in I as (j & E & I); apply in_seq in I; injection E as <- <-; [exists (2 * j + 1)|exists (2 * j)]; repeat split; try lia. f_equal. lia.
  Qed.
  Lemma cell_qubits c t th f q : In q (flat_map S_Den.qubits (cell ent ops c t th f)) -> q = c \/ q = t.
  Proof.
    assert (R : forall os p, In q (flat_map S_Den.qubits (rotations_on os c t th p)) -> q = c \/ q = t).
    { induction os as [|o os IH]; intros p I; cbn [rotations_on flat_map S_Den.qubits app] in I; [destruct I|]. destruct I as [<-|[<-|I]]; auto. apply (IH _ I). }
    unfold cell. rewrite !flat_map_app, !in_app_iff. intros [I|[I|[I|I]]]; [eapply R, I| |eapply R, I|].
    - cbn [flat_map S_Den.qubits] in I. rewrite !in_app_iff in I. cbn [In] in I. repeat destruct I as [I|I]; try (symmetry in I); try contradiction; auto; apply Hent in I; tauto.
    - destruct f; [|destruct I]. cbn [flat_map] in I. rewrite app_nil_r in I. apply Hent in I. tauto.
  Qed.
  Lemma rep_qubits l r f q : forall ps j, In q (flat_map S_Den.qubits (rep_gates ent ops corr l r f j ps)) -> exists c t, In (c, t) ps /\ (q = c \/ q = t).
  Proof.
    induction ps as [|[c t] ps IH]; intros j I; cbn [rep_gates] in I; [destruct I|]. rewrite flat_map_app, in_app_iff in I. destruct I as [I|I].
    - apply cell_qubits in I. exists c, t. split; [left; reflexivity|exact I].
    - destruct (IH _ I) as (c' & t' & A & B). exists c', t'. split; [right; exact A|exact B].
  Qed.
  Lemma layer_qubits l d q : In q (S_Den.qubits (BChain (layer_gates ent ops corr n l d))) -> takes_part l q.
  Proof.
    intros I. cbn [S_Den.qubits] in I. apply in_flat_map in I as (g & I & Q). unfold layer_gates in I. apply in_flat_map in I as (r & _ & I).
    destruct (rep_qubits l r (r =? d - 1) q (cell_pairs n l r) 0) as (c & t & P & W); [apply in_flat_map; exists g; auto|]. apply pair_in in P as (j & J & -> & ->). destruct W as [-> | ->]; apply survivor_part; lia.
  Qed.
  (** Pooling: from layer l on nothing is done to the other qubits, so that measuring or otherwise changing them before layer l or after the circuit is the same. *)
  Theorem C64_pooling : forall m depth basis gate rho circ, circuit m depth basis gate rho = Some circ ->
    exists fm layers, circ = BChain [fm; BChain layers] /\ length layers = length depth /\
    forall l val A, loc (fun q => ~ takes_part l q) A -> let rest := den val (BChain (skipn l layers)) in seqop A rest = seqop rest A.
  Proof.
    intros m depth basis gate rho circ H. destruct (C64_circuit _ _ _ _ _ _ H) as (fm & ls & E & _ & L & P). exists fm, ls. split; [exact E|]. split; [exact L|]. intros l val A HA rest.
    apply (loc_comm (fun q => ~ takes_part l q) (takes_part l)); [exact HA| |tauto]. unfold rest. rewrite L_Den.den_chain.
    assert (G : forall b, In b (skipn l ls) -> loc (takes_part l) (den val b)).
    { intros b I. apply In_nth_error in I as [k I]. assert (I' : nth_error ls (l + k) = Some b). { rewrite <- (firstn_skipn l ls), nth_error_app2 by (rewrite firstn_length; lia). rewrite firstn_length. destruct (Nat.le_gt_cases l (length ls)) as [Q|Q]; [rewrite Nat.min_l by exact Q; replace (l + k - l) with k by lia; exact I|]. rewrite skipn_all2 in I by lia. destruct k; discriminate I. }
      destruct (nth_error depth (l + k)) as [d|] eqn:D; [|apply nth_error_None in D; assert (l + k < length ls) by (apply nth_error_Some; congruence); lia].
      destruct (P _ _ _ D I') as [X _]. rewrite X. eapply loc_mono; [|apply den_loc]. intros q Q. apply (part_next l (l + k)); [lia|]. exact (layer_qubits _ _ _ Q). }
    clear - G. induction (skipn l ls) as [|b bs IH]; [constructor|]. change (dchain val (b :: bs)) with (seqop (den val b) (dchain val bs)). constructor; [apply G; left; reflexivity|apply IH; intros b' I; apply G; right; exact I].
  Qed.
  (** In a repetition without shift and with an even number of qubits taking part, each of them is in exactly one cell; with the shift all but the first and the last are. *)
  Theorem C64_coverage : forall l r, Nat.even (n / 2 ^ l) = true -> 2 <= n / 2 ^ l ->
    let cellq := flat_map (fun ct => [fst ct; snd ct]) (cell_pairs n l r) in NoDup cellq /\
    forall q, In q cellq <-> takes_part l q /\ (l <= 1 -> Nat.odd r = true -> q <> survivor l 0 /\ q <> survivor l (n / 2 ^ l - 1)).
  Proof.
    intros l r E L2. set (L := n / 2 ^ l) in *. apply Nat.even_spec in E as [h E].
    assert (F : forall s k, flat_map (fun ct => [fst ct; snd ct]) (map (fun j => (survivor l (2 * j + s), survivor l (2 * j + s + 1))) (seq 0 k)) = map (survivor l) (seq s (2 * k))).
    { intros s k. induction k as [|k IH]; [reflexivity|]. rewrite seq_S, map_app, flat_map_app, IH. cbn [map flat_map fst snd app]. replace (2 * S k) with (2 * k + 2) by lia. rewrite seq_app, map_app. cbn [seq map]. rewrite !Nat.add_0_l. replace (2 * k + s + 1) with (S (s + 2 * k)) by lia. replace (2 * k + s) with (s + 2 * k) by lia. reflexivity. }
    assert (INJ : forall i j, survivor l i = survivor l j -> i = j). { intros i j Q. unfold survivor in Q. pose proof (pow2_pos l). assert (1 <= 2 ^ l * (i + 1)) by nia. assert (1 <= 2 ^ l * (j + 1)) by nia. nia. }
    assert (ND : forall s k, NoDup (map (survivor l) (seq s k))). { intros s k. apply FinFun.Injective_map_NoDup; [exact INJ|apply seq_NoDup]. }
    unfold cell_pairs. fold L. destruct ((l <=? 1) && Nat.odd r) eqn:B.
    - apply andb_true_iff in B as [B1 B2]. apply Nat.leb_le in B1. rewrite (map_ext _ (fun j => (survivor l (2 * j + 1), survivor l (2 * j + 1 + 1)))) by (intros j; f_equal; f_equal; lia). rewrite F. split; [apply ND|].
      assert (D : (L - 2) / 2 = h - 1). { replace (L - 2) with ((h - 1) * 2) by lia. apply Nat.div_mul. lia. } rewrite D. intros q. rewrite in_map_iff. split.
      + intros (j & <- & J). apply in_seq in J. split; [apply survivor_part; fold L; lia|]. intros _ _. split; intros X; apply INJ in X; lia.
      + intros [T X]. apply part_survivor in T as (j & J & ->). fold L in J. destruct (X B1 B2) as [X1 X2]. exists j. split; [reflexivity|]. apply in_seq. assert (j <> 0) by (intros ->; congruence). assert (j <> L - 1) by (intros ->; congruence). lia.
    - rewrite (map_ext _ (fun j => (survivor l (2 * j + 0), survivor l (2 * j + 0 + 1)))) by (intros j; f_equal; f_equal; lia). rewrite F. split; [apply ND|].
      assert (D : L / 2 = h). { replace L with (h * 2) by lia. apply Nat.div_mul. lia. } rewrite D. intros q. rewrite in_map_iff. split.
      + intros (j & <- & J). apply in_seq in J. split; [apply survivor_part; fold L; lia|]. intros B1 B2. apply Nat.leb_le in B1. rewrite B1, B2 in B. discriminate.
      + intros [T _]. apply part_survivor in T as (j & J & ->). fold L in J. exists j. split; [reflexivity|]. apply in_seq. lia.
  Qed.

  (** ** When it is defined *)
  Lemma pad_kron qs c t x y : NoDup qs -> ~ In c qs -> ~ In t qs -> c <> t -> S_Den.qubits x = [c] -> S_Den.qubits y = [t] ->
    mk_kron si (map (BPrim PI_) qs ++ [x; y]) = Some (BKron (map (BPrim PI_) qs ++ [x; y])) /\ forall q, In q (S_Den.qubits (BKron (map (BPrim PI_) qs ++ [x; y]))) -> q = c \/ q = t \/ In q qs.
  Proof.
    intros ND Hc Ht Hct X Y. split.
    - apply (proj1 (mk_kron_spec si Hs _)). split; [destruct qs; discriminate|]. clear - ND Hc Ht Hct X Y. induction qs as [|a qs IH]; cbn [map app].
      + constructor; [constructor; [|constructor]|constructor; constructor]. intros q. rewrite X, Y. intros [<-|[]] [E|[]]. congruence.
      + inversion ND as [|? ? N1 N2]; subst. constructor; [|apply IH; [exact N2|intros I; apply Hc; right; exact I|intros I; apply Ht; right; exact I]].
        apply Forall_forall. intros b I q [<-|[]] Q. apply in_app_iff in I as [I|[<-|[<-|[]]]].
        * apply in_map_iff in I as (a' & <- & I). destruct Q as [<-|[]]. contradiction.
        * rewrite X in Q. destruct Q as [<-|[]]. apply Hc. left. reflexivity.
        * rewrite Y in Q. destruct Q as [<-|[]]. apply Ht. left. reflexivity.
    - intros q I. cbn [S_Den.qubits] in I. rewrite flat_map_app, in_app_iff in I. destruct I as [I|I].
      + right. right. apply in_flat_map in I as (b & I & W). apply in_map_iff in I as (a & <- & I). destruct W as [<-|[]]. exact I.
      + cbn [flat_map] in I. rewrite X, Y in I. cbn in I. intuition.
  Qed.
  Lemma op_gates_def qs l r c t : NoDup qs -> ~ In c qs -> ~ In t qs -> c <> t -> forall os pos, exists gs, op_gates si corr (map (BPrim PI_) qs) os l r c t pos = Some gs /\
    forall q, In q (flat_map S_Den.qubits gs) -> q = c \/ q = t \/ In q qs.
  Proof.
    intros ND Hc Ht Hct. induction os as [|o os IH]; intros pos; [exists []; split; [reflexivity|intros q []]|]. cbn [op_gates].
    destruct (pad_kron qs c t (BRot o c (EVar (param_name l r pos corr))) (BRot o t (EVar (param_name l r (pos + 1) corr))) ND Hc Ht Hct eq_refl eq_refl) as [K KQ]. rewrite K. cbn [obind].
    destruct (IH (pos + 2)) as (gs & -> & Q). cbn [obind]. eexists. split; [reflexivity|]. intros q I. cbn [flat_map] in I. apply in_app_iff in I as [I|I]; [apply KQ, I|apply Q, I].
  Qed.
  Lemma single_W_def cnt l r m c t sp : c <> t -> exists b cnt', create_single_W si ent ops corr n cnt l r m c t sp = Some (b, cnt') /\
    forall q, In q (S_Den.qubits b) -> q = c \/ q = t \/ (c - sp <= q <= c + sp /\ q < n).
  Proof.
    intros Hct. unfold create_single_W, padding. set (qs := filter _ _).
    assert (QS : NoDup qs /\ ~ In c qs /\ ~ In t qs /\ forall q, In q qs -> c - sp <= q <= c + sp /\ q < n).
    { unfold qs. split; [apply NoDup_filter, seq_NoDup|]. assert (F : forall q, In q qs -> q <> c /\ q <> t /\ c - sp <= q <= c + sp /\ q < n).
      { intros q I. apply filter_In in I as [I B]. apply in_seq in I. apply andb_true_iff in B as [B B3]. apply andb_true_iff in B as [B1 B2]. apply negb_true_iff, Nat.eqb_neq in B1, B2. apply Nat.ltb_lt in B3. repeat split; auto; lia. }
      fold qs. split; [intros I; apply F in I; tauto|]. split; [intros I; apply F in I; tauto|]. intros q I. apply F in I. tauto. }
    clearbody qs. destruct QS as (ND & Hc & Ht & R). set (p0 := match get cnt _ with Some p => p | None => 0 end). clearbody p0.
    destruct (op_gates_def qs l r c t ND Hc Ht Hct ops p0) as (g1 & -> & Q1). cbn [obind].
    destruct (pad_kron qs c t (BRot RZ_ c (EVar (param_name l r (p0 + 2 * length ops) corr))) (BRot RY_ t (EVar (param_name l r (p0 + 2 * length ops + 1) corr))) ND Hc Ht Hct eq_refl eq_refl) as [-> Q2]. cbn [obind].
    destruct (pad_kron qs c t (BPrim PI_ c) (BRot RY_ t (EVar (param_name l r (p0 + 2 * length ops + 2) corr))) ND Hc Ht Hct eq_refl eq_refl) as [-> Q3]. cbn [obind].
    destruct (op_gates_def qs l r c t ND Hc Ht Hct ops (p0 + 2 * length ops + 3)) as (g2 & -> & Q4). cbn [obind]. eexists _, _. split; [reflexivity|]. intros q I.
    assert (W : q = c \/ q = t \/ In q qs); [|destruct W as [W|[W|W]]; auto].
    change (In q (flat_map S_Den.qubits (g1 ++ [ent t c; BKron (map (BPrim PI_) qs ++ [BRot RZ_ c (EVar (param_name l r (p0 + 2 * length ops) corr)); BRot RY_ t (EVar (param_name l r (p0 + 2 * length ops + 1) corr))]); ent c t;
      BKron (map (BPrim PI_) qs ++ [BPrim PI_ c; BRot RY_ t (EVar (param_name l r (p0 + 2 * length ops + 2) corr))]); ent t c] ++ g2 ++ (if r =? m - 1 then [ent c t] else [])))) in I.
    rewrite !flat_map_app, !in_app_iff in I. destruct I as [I|[I|[I|I]]]; [apply Q1, I| |apply Q4, I|].
    - apply in_flat_map in I as (b & I & X). destruct I as [<-|[<-|[<-|[<-|[<-|[]]]]]]; [apply Hent in X; tauto|apply Q2, X|apply Hent in X; tauto|apply Q3, X|apply Hent in X; tauto].
    - destruct (r =? m - 1); [|destruct I]. cbn [flat_map] in I. rewrite app_nil_r in I. apply Hent in I. tauto.
  Qed.
  Lemma cells_def l r m : forall ps cnt, (forall c t, In (c, t) ps -> c <> t) -> exists ws cnt', cells si ent ops corr n cnt l r m ps = Some (ws, cnt') /\
    Forall2 (fun ct w => forall q, In q (S_Den.qubits w) -> q = fst ct \/ q = snd ct \/ (fst ct - l <= q <= fst ct + l /\ q < n)) ps ws.
  Proof.
    induction ps as [|[c t] ps IH]; intros cnt H; [eexists _, _; split; [reflexivity|constructor]|]. cbn [cells]. destruct (single_W_def cnt l r m c t l (H c t (or_introl eq_refl))) as (b & cnt1 & -> & Q). cbn [obind fst snd].
    destruct (IH cnt1) as (ws & cnt2 & -> & F); [intros c' t' I; apply H; right; exact I|]. cbn [obind fst snd]. eexists _, _. split; [reflexivity|]. constructor; assumption.
  Qed.
  (** In the first two layers the cells of a repetition are on different qubits, padding included. *)
  Lemma pairs_apart l r ps : l <= 1 -> ps = cell_pairs n l r -> forall ws, Forall2 (fun ct w => forall q, In q (S_Den.qubits w) -> q = fst ct \/ q = snd ct \/ (fst ct - l <= q <= fst ct + l /\ q < n)) ps ws -> ForallOrdPairs disjoint_blocks ws.
  Proof.
    intros L E ws F. assert (G : forall s k b (f : nat -> nat * nat), (forall j, f j = (survivor l (2 * j + s), survivor l (2 * j + s + 1))) -> forall ws, Forall2 (fun ct w => forall q, In q (S_Den.qubits w) -> q = fst ct \/ q = snd ct \/ (fst ct - l <= q <= fst ct + l /\ q < n)) (map f (seq b k)) ws -> ForallOrdPairs disjoint_blocks ws /\ Forall (fun w => forall q, In q (S_Den.qubits w) -> survivor l (2 * b + s) - l <= q) ws).
    { clear E F ws ps. intros s k. induction k as [|k IH]; intros b f Ff ws F; [inversion F; split; constructor|]. cbn [seq map] in F. inversion F as [|? w ? ws' F1 F2]; subst. destruct (IH (S b) f Ff ws' F2) as [I1 I2]. rewrite Ff in F1. cbn [fst snd] in F1.
      assert (A : forall q, In q (S_Den.qubits w) -> survivor l (2 * b + s) - l <= q < survivor l (2 * S b + s) - l).
      { intros q Q. apply F1 in Q. unfold survivor in *. assert (E2 : l = 0 /\ 2 ^ l = 1 \/ l = 1 /\ 2 ^ l = 2) by (destruct l as [|[|l']]; [left; auto|right; auto|lia]). destruct E2 as [[-> E2]|[-> E2]]; rewrite E2 in *; lia. }
      split; [constructor; [|exact I1]|constructor; [intros q Q; apply A in Q; lia|]].
      - eapply Forall_impl; [|exact I2]. intros w' W q Q1 Q2. apply A in Q1. apply W in Q2. lia.
      - eapply Forall_impl; [|exact I2]. intros w' W q Q. apply W in Q. unfold survivor in *. assert (E2 : l = 0 /\ 2 ^ l = 1 \/ l = 1 /\ 2 ^ l = 2) by (destruct l as [|[|l']]; [left; auto|right; auto|lia]). destruct E2 as [[-> E2]|[-> E2]]; rewrite E2 in *; lia. }
    subst ps. unfold cell_pairs in F. destruct ((l <=? 1) && Nat.odd r); [eapply (G 1 _ 0); [|exact F]|eapply (G 0 _ 0); [|exact F]]; intros j; cbv beta; f_equal; f_equal; lia.
  Qed.
  Lemma pair_neq l r c t : In (c, t) (cell_pairs n l r) -> c <> t /\ c < n /\ t < n.
  Proof.
    intros I. apply pair_in in I as (j & J & -> & ->). split; [|split; apply survivor_part; lia]. unfold survivor. pose proof (pow2_pos l). assert (1 <= 2 ^ l * (j + 1)) by nia. nia.
  Qed.
  Lemma repetitions_def l m : 2 <= n / 2 ^ l -> forall todo cnt r, 
    ((exists bs cnt', repetitions si ent ops corr n todo cnt l r m (indices n l) = Some (bs, cnt')) <-> (l <= 1 -> forall r', r <= r' < r + todo -> Nat.odd r' = true -> 4 <= n / 2 ^ l)) /\
    forall bs cnt', repetitions si ent ops corr n todo cnt l r m (indices n l) = Some (bs, cnt') -> forall q, In q (flat_map S_Den.qubits bs) -> q < n.
  Proof.
    intros L2. induction todo as [|todo IH]; intros cnt r; cbn [repetitions].
    - split; [split; [intros _ _ r' R; lia|intros _; eexists _, _; reflexivity]|]. intros bs cnt' H. injection H as <- <-. intros q [].
    - rewrite pairs_spec. destruct (cells_def l r m (cell_pairs n l r) cnt) as (ws & cnt1 & -> & F); [intros c t I; apply (pair_neq _ _ _ _ I)|]. cbn [obind fst snd].
      assert (QW : forall q, In q (flat_map S_Den.qubits ws) -> q < n).
      { intros q I. apply in_flat_map in I as (w & I & Q). apply In_nth_error in I as [k I]. destruct (nth_error (cell_pairs n l r) k) as [[c t]|] eqn:K.
        - pose proof (F2_nth _ _ _ F k _ _ K I q Q) as X. cbn [fst snd] in X. apply nth_error_In, pair_neq in K. destruct X as [->|[->|X]]; tauto.
        - apply nth_error_None in K. rewrite (F2_length _ _ _ F) in K. assert (k < length ws) by (apply nth_error_Some; congruence). lia. }
      destruct (IH cnt1 (r + 1)) as [I1 I2]. destruct (Nat.leb_spec l 1) as [L|L].
      + pose proof (pairs_apart l r _ L eq_refl ws F) as AP. assert (LE : length ws = length (cell_pairs n l r)) by (symmetry; apply (F2_length _ _ _ F)).
        assert (NE : ws <> [] <-> (Nat.odd r = true -> 4 <= n / 2 ^ l)).
        { unfold cell_pairs in LE. destruct (Nat.leb_spec l 1) as [_|]; [|lia]. cbn [andb] in LE. set (X := n / 2 ^ l) in *. destruct (Nat.odd r).
          - rewrite map_length, seq_length in LE. split.
            + intros W _. destruct ws; [congruence|]. cbn in LE. destruct X as [|[|[|[|X]]]]; try (cbn in LE; lia); lia.
            + intros W. specialize (W eq_refl). assert (1 <= (X - 2) / 2) by (apply Nat.div_le_lower_bound; lia). intros ->. cbn [length] in LE. lia.
          - rewrite map_length, seq_length in LE. assert (1 <= X / 2) by (apply Nat.div_le_lower_bound; lia). split; [discriminate|]. intros _ ->. cbn [length] in LE. lia. }
        split; [split|].
        * intros (bs & cnt' & H) _ r' R O. destruct (mk_kron si ws) as [k|] eqn:K; [|discriminate]. apply (mk_kron_some si Hs) in K as (_ & K & _). cbn [option_map obind] in H.
          destruct (repetitions si ent ops corr n todo cnt1 l (r + 1) m (indices n l)) as [[bs' c']|] eqn:E; [|discriminate].
          destruct (Nat.eq_dec r' r) as [->|]; [apply NE; assumption|]. apply (proj1 I1 ltac:(eexists _, _; reflexivity) L r'); [lia|exact O].
        * intros H. assert (K : mk_kron si ws = Some (BKron ws)) by (apply (proj1 (mk_kron_spec si Hs _)); split; [apply NE; intros O; apply (H L r); [lia|exact O]|exact AP]). rewrite K. cbn [option_map obind].
          destruct (proj2 I1) as (bs & c & E); [intros _ r' R O; apply (H L r'); [lia|exact O]|]. rewrite E. cbn [obind fst snd]. eexists _, _. reflexivity.
        * intros bs cnt' H q I. destruct (mk_kron si ws) as [k|] eqn:K; [|discriminate]. apply (mk_kron_some si Hs) in K as (-> & _). cbn [option_map obind] in H.
          destruct (repetitions si ent ops corr n todo cnt1 l (r + 1) m (indices n l)) as [[bs' c']|] eqn:E; [|discriminate]. cbn [obind fst snd] in H. injection H as <- <-. cbn [app flat_map S_Den.qubits] in I. apply in_app_iff in I as [I|I]; [apply QW, I|]. apply (I2 _ _ eq_refl q I).
      + cbn [obind]. split; [split|].
        * intros _ X. lia.
        * intros _. destruct (proj2 I1) as (bs & c & E); [intros X; lia|]. rewrite E. cbn [obind fst snd]. eexists _, _. reflexivity.
        * intros bs cnt' H q I. destruct (repetitions si ent ops corr n todo cnt1 l (r + 1) m (indices n l)) as [[bs' c']|] eqn:E; [|discriminate]. cbn [obind fst snd] in H. injection H as <- <-. rewrite flat_map_app in I. apply in_app_iff in I as [I|I]; [apply QW, I|]. apply (I2 _ _ eq_refl q I).
  Qed.
  Lemma conv_layers_def : forall depth l cnt,
    ((exists ls, conv_layers si ent ops corr n l depth (indices n l) cnt = Some ls) <-> (forall i d, nth_error depth i = Some d -> 2 <= n / 2 ^ (l + i) /\ (l + i <= 1 -> 1 < d -> 4 <= n / 2 ^ (l + i)))) /\
    forall ls, conv_layers si ent ops corr n l depth (indices n l) cnt = Some ls -> forall q, In q (flat_map S_Den.qubits ls) -> q < n.
  Proof.
    induction depth as [|d depth IH]; intros l cnt; cbn [conv_layers].
    - split; [split; [intros _ [|i] d E; discriminate E|intros _; eexists; reflexivity]|]. intros ls H. injection H as <-. intros q [].
    - assert (LI : length (indices n l) = n / 2 ^ l) by (unfold indices; rewrite map_length, seq_length; reflexivity). rewrite LI. destruct (Nat.ltb_spec (n / 2 ^ l) 2) as [S2|S2].
      { split; [split; [intros [ls H]; discriminate H|]|discriminate]. intros H. destruct (H 0 d eq_refl) as [X _]. rewrite Nat.add_0_r in X. lia. }
      destruct (repetitions_def l d S2 d cnt 0) as [R1 R2]. unfold create_conv_layer. rewrite next_indices.
      assert (RD : (l <= 1 -> forall r', 0 <= r' < 0 + d -> Nat.odd r' = true -> 4 <= n / 2 ^ l) <-> (l <= 1 -> 1 < d -> 4 <= n / 2 ^ l)).
      { split; intros H L; [intros D; apply (H L 1); [lia|reflexivity]|]. intros r' R O. apply H; [exact L|]. destruct r' as [|r']; [discriminate O|]. lia. }
      rewrite RD in R1. clear RD. split; [split|].
      + intros [ls H] i d' N. destruct (repetitions si ent ops corr n d cnt l 0 d (indices n l)) as [[bs c]|] eqn:E; [|discriminate]. cbn [obind fst snd] in H.
        destruct (conv_layers si ent ops corr n (l + 1) depth (indices n (l + 1)) c) as [rest|] eqn:E2; [|discriminate]. destruct i as [|i]; cbn [nth_error] in N.
        * injection N as ->. rewrite Nat.add_0_r. split; [exact S2|]. apply R1. eexists _, _. reflexivity.
        * replace (l + S i) with (l + 1 + i) by lia. apply (proj1 (proj1 (IH (l + 1) c)) ltac:(eexists; exact E2) i d' N).
      + intros H. destruct (proj2 R1) as (bs & c & E). { destruct (H 0 d eq_refl) as [_ X]. rewrite Nat.add_0_r in X. exact X. } rewrite E. cbn [obind fst snd].
        destruct (proj2 (proj1 (IH (l + 1) c))) as [rest E2]. { intros i d' N. replace (l + 1 + i) with (l + S i) by lia. apply H. exact N. } rewrite E2. cbn [obind]. eexists. reflexivity.
      + intros ls H q I. destruct (repetitions si ent ops corr n d cnt l 0 d (indices n l)) as [[bs c]|] eqn:E; [|discriminate]. cbn [obind fst snd] in H.
        destruct (conv_layers si ent ops corr n (l + 1) depth (indices n (l + 1)) c) as [rest|] eqn:E2; [|discriminate]. cbn [obind] in H. injection H as <-. cbn [flat_map] in I. apply in_app_iff in I as [I|I].
        * apply (R2 _ _ eq_refl q). destruct (l <=? 1); cbn [S_Den.qubits flat_map] in I; [rewrite app_nil_r in I|]; exact I.
        * apply (proj2 (IH (l + 1) c) _ E2 q I).
  Qed.
  Lemma nqubits_le bs : (forall q, In q (S_Den.qubits (BChain bs)) -> q < n) -> nqubits si (BChain bs) <= n.
  Proof.
    intros H. change (nqubits si (BChain bs)) with (max_plus1 (locals (bsup si (BChain bs)))). destruct (max_plus1_spec (locals (bsup si (BChain bs)))) as (_ & A & B). destruct (locals (bsup si (BChain bs))) as [|x l] eqn:E; [rewrite B by reflexivity; lia|].
    destruct (A ltac:(discriminate)) as (q & I & ->). rewrite <- E in I. apply (in_bsup si Hs) in I. apply H in I. lia.
  Qed.
  (** Exactly these networks can be built. *)
  Theorem C64_defined : forall m depth basis gate rho, lo (range_or basis None) <> hi (range_or basis None) ->
    ((exists circ, circuit m depth basis gate rho = Some circ) <->
     4 <= n /\ Nat.even n = true /\ Forall (fun d => Nat.odd d = true) depth /\ 1 <= m <= n /\ 2 ^ length depth <= n /\ (forall d, nth_error depth 1 = Some d -> 1 < d -> 8 <= n)).
  Proof.
    intros m depth basis gate rho HR. pose proof (proj1 (conv_layers_def depth 0 [])) as CL. pose proof (C64_feature_map_defined si Hs n m basis gate rho HR) as FD. split.
    - intros [circ H]. destruct (circuit_parts _ _ _ _ _ _ H) as (fm & ls & F & L & _ & N4 & NE & D & _). split; [exact N4|]. split; [exact NE|]. split; [exact D|]. split; [apply FD; exists fm; exact F|].
      pose proof (proj1 CL ltac:(eexists; exact L)) as C. split.
      + destruct (length depth) as [|k] eqn:K; [cbn; lia|]. destruct (nth_error depth k) as [d|] eqn:Q; [|apply nth_error_None in Q; lia]. destruct (C k d Q) as [X _]. cbn [Nat.add] in X. pose proof (pow2_pos k).
        pose proof (Nat.mul_div_le n (2 ^ k) ltac:(lia)). cbn [Nat.pow]. nia.
      + intros d Q D1. destruct (C 1 d Q) as [_ X]. specialize (X ltac:(lia) D1). cbn [Nat.add Nat.pow Nat.mul] in X. pose proof (Nat.mul_div_le n 2 ltac:(lia)). lia.
    - intros (N4 & NE & D & M & P & D8). destruct (proj2 FD ltac:(lia)) as [fm F]. destruct (proj2 CL) as [ls L].
      { intros i d Q. cbn [Nat.add]. assert (i < length depth) by (apply nth_error_Some; congruence). pose proof (pow2_pos i). assert (2 ^ (i + 1) <= 2 ^ length depth) by (apply Nat.pow_le_mono_r; lia). rewrite Nat.add_1_r in *. cbn [Nat.pow] in *.
        split; [apply Nat.div_le_lower_bound; lia|]. intros I1 D1. destruct i as [|[|i]]; [| |lia].
        - cbn [Nat.pow]. rewrite Nat.div_1_r. exact N4.
        - specialize (D8 d Q D1). apply Nat.div_le_lower_bound; cbn; lia. }
      unfold qcnn_circuit. destruct (Nat.ltb_spec n 4); [lia|]. unfold Nat.odd. rewrite NE. cbn [orb negb]. assert (EX : existsb Nat.even depth = false).
      { destruct (existsb Nat.even depth) eqn:X; [|reflexivity]. apply existsb_exists in X as (d & I & V). rewrite Forall_forall in D. specialize (D d I). unfold Nat.odd in D. rewrite V in D. discriminate. }
      rewrite EX, F. cbn [obind]. rewrite indices_0 in L. rewrite L. cbn [obind]. unfold quantum_circuit. destruct (Nat.ltb_spec n (nqubits si (BChain [fm; BChain ls]))) as [X|X]; [|eexists; reflexivity]. exfalso.
      assert (nqubits si (BChain [fm; BChain ls]) <= n); [|lia]. apply nqubits_le. intros q I. cbn [S_Den.qubits flat_map] in I. rewrite app_nil_r in I. apply in_app_iff in I as [I|I].
      + destruct (C64_feature_map si Hs n m basis gate rho fm F) as (shares & parts & -> & L1 & CC & _ & LQ & LP & PP). cbn [S_Den.qubits] in I. apply in_flat_map in I as (b & I & Q). apply In_nth_error in I as [i I].
        assert (i < m) by (rewrite <- LP; apply nth_error_Some; congruence). destruct (nth_error shares i) as [s|] eqn:E1; [|apply nth_error_None in E1; lia]. destruct (nth_error (qcnn_inputs m) i) as [nm|] eqn:E2; [|apply nth_error_None in E2; lia].
        destruct (PP i nm s b E2 E1 I) as (_ & gs & _ & -> & MF). cbn [S_Den.qubits] in Q. rewrite gates_qubits, MF in Q. assert (In q (seq 0 n)) as Y by (rewrite <- CC; apply in_concat; exists s; split; [eapply nth_error_In; exact E1|exact Q]). apply in_seq in Y. lia.
      + rewrite <- indices_0 in L. apply (proj2 (conv_layers_def depth 0 []) ls L q I).
  Qed.
  (** No gate is on a qubit outside the register. *)
  Theorem C64_fits : forall m depth basis gate rho circ, circuit m depth basis gate rho = Some circ -> forall q, In q (S_Den.qubits circ) -> q < n.
  Proof.
    intros m depth basis gate rho circ H q I. destruct (circuit_parts _ _ _ _ _ _ H) as (fm & ls & _ & _ & E & _ & _ & _ & L).
    assert (W : P_Overlap.wide si circ) by (apply P_Overlap.wide_composite; [exact Hs|]; eexists; left; exact E). specialize (W q I). lia.
  Qed.
  (** ** Parameters *)
  Hypothesis Hpar : forall a b, bvars (ent a b) = [].
  Lemma seq_offset s k : forall b, map (fun p => s + p) (seq b k) = seq (s + b) k.
  Proof. induction k as [|k IH]; intros b; [reflexivity|]. cbn [seq map]. rewrite IH. f_equal. f_equal. lia. Qed.
  Lemma rotations_vars c t th : forall os p, flat_map bvars (rotations_on os c t th p) = map th (seq p (2 * length os)).
  Proof.
    induction os as [|o os IH]; intros p; [reflexivity|]. cbn [rotations_on flat_map bvars evars app]. rewrite IH. replace (2 * length (o :: os)) with (S (S (2 * length os))) by (cbn [length]; lia). cbn [seq map]. rewrite Nat.add_1_r. replace (p + 2) with (S (S p)) by lia. reflexivity.
  Qed.
  Lemma cell_vars c t th f : flat_map bvars (cell ent ops c t th f) = map th (seq 0 (cell_size ops)).
  Proof.
    unfold cell. rewrite !flat_map_app, !rotations_vars. cbn [flat_map bvars evars app]. rewrite !Hpar. cbn [app]. assert (F : flat_map bvars (if f then [ent c t] else []) = []) by (destruct f; [cbn [flat_map]; rewrite Hpar|]; reflexivity). rewrite F, app_nil_r.
    unfold cell_size. replace (4 * length ops + 3) with (2 * length ops + (3 + 2 * length ops)) by lia. rewrite !seq_app, !map_app. rewrite Nat.add_0_l. f_equal. cbn [seq map app]. replace (2 * length ops + 1) with (S (2 * length ops)) by lia. replace (2 * length ops + 2) with (S (S (2 * length ops))) by lia. reflexivity.
  Qed.
  Lemma rep_vars l r f : forall ps j, flat_map bvars (rep_gates ent ops corr l r f j ps) = map (theta corr l r) (seq (cell_size ops * j) (cell_size ops * length ps)).
  Proof.
    induction ps as [|[c t] ps IH]; intros j; [cbn; rewrite Nat.mul_0_r; reflexivity|]. cbn [rep_gates]. rewrite flat_map_app, cell_vars, IH. cbn [length]. rewrite Nat.mul_succ_r, Nat.add_comm with (n := cell_size ops * length ps), seq_app, map_app. f_equal.
    - rewrite <- (map_map (fun p => cell_size ops * j + p) (theta corr l r)). rewrite seq_offset, Nat.add_0_r. reflexivity.
    - f_equal. f_equal. lia.
  Qed.
  (** The parameters of layer l in the order of the gates: 4k+3 for each cell, numbered through in each repetition.  Without correlation all parameters of the circuit are
      different; with it there are at most nine for each layer. *)
  Theorem C64_parameters : forall m depth basis gate rho circ, circuit m depth basis gate rho = Some circ ->
    exists fm layers, circ = BChain [fm; BChain layers] /\ length layers = length depth /\
    (forall l d layer, nth_error depth l = Some d -> nth_error layers l = Some layer ->
      bvars layer = flat_map (fun r => map (theta corr l r) (seq 0 ((4 * length ops + 3) * length (cell_pairs n l r)))) (seq 0 d)) /\
    (corr = false -> NoDup (flat_map bvars layers)) /\
    (corr = true -> forall l layer x, nth_error layers l = Some layer -> In x (bvars layer) -> exists k, k < 9 /\ x = ("θ_" ++ dec l ++ "_" ++ dec k)%string).
  Proof.
    intros m depth basis gate rho circ H. destruct (C64_circuit _ _ _ _ _ _ H) as (fm & ls & E & _ & L & P). exists fm, ls. split; [exact E|]. split; [exact L|].
    assert (V : forall l d layer, nth_error depth l = Some d -> nth_error ls l = Some layer -> bvars layer = flat_map (fun r => map (theta corr l r) (seq 0 ((4 * length ops + 3) * length (cell_pairs n l r)))) (seq 0 d)).
    { intros l d layer D Y. destruct (P l d layer D Y) as [_ ->]. unfold layer_gates. generalize (seq 0 d) as rs. induction rs as [|r rs IH]; [reflexivity|]. cbn [flat_map]. rewrite flat_map_app, IH, rep_vars, Nat.mul_0_r. reflexivity. }
    split; [exact V|]. split.
    - intros ->. assert (W : forall l layer x, nth_error ls l = Some layer -> In x (bvars layer) -> exists r p, x = theta false l r p).
      { intros l layer x Y I. destruct (nth_error depth l) as [d|] eqn:D; [|apply nth_error_None in D; assert (l < length ls) by (apply nth_error_Some; congruence); lia]. rewrite (V l d layer D Y) in I. apply in_flat_map in I as (r & _ & I). apply in_map_iff in I as (p & <- & _). eauto. }
      assert (N : forall l layer, nth_error ls l = Some layer -> NoDup (bvars layer)).
      { intros l layer Y. destruct (nth_error depth l) as [d|] eqn:D; [|apply nth_error_None in D; assert (l < length ls) by (apply nth_error_Some; congruence); lia]. rewrite (V l d layer D Y). generalize (seq_NoDup d 0). generalize (seq 0 d) as rs.
        induction rs as [|r rs IH]; intros ND; [constructor|]. inversion ND as [|? ? N1 N2]; subst. cbn [flat_map]. apply NoDup_app_intro; [apply FinFun.Injective_map_NoDup; [intros p p' X; apply theta_inj in X; tauto|apply seq_NoDup]|apply IH, N2|].
        intros x I J. apply in_map_iff in I as (p & <- & _). apply in_flat_map in J as (r' & R & J). apply in_map_iff in J as (p' & X & _). apply theta_inj in X as (_ & -> & _). contradiction. }
      clear - W N. assert (G : forall b, (forall l layer x, nth_error ls l = Some layer -> In x (bvars layer) -> exists r p, x = theta false (b + l) r p) -> NoDup (flat_map bvars ls)); [|apply (G 0 W)].
      revert N. clear W. induction ls as [|y ls IH]; intros N b W; [constructor|]. cbn [flat_map]. apply NoDup_app_intro; [apply (N 0 y eq_refl)| |].
      + apply (IH (fun l layer Y => N (S l) layer Y) (b + 1)). intros l layer x Y I. destruct (W (S l) layer x Y I) as (r & p & ->). exists r, p. f_equal. lia.
      + intros x I J. destruct (W 0 y x eq_refl I) as (r & p & ->). apply in_flat_map in J as (y' & Y & J). apply In_nth_error in Y as [l Y]. destruct (W (S l) y' _ Y J) as (r' & p' & X). apply theta_inj in X as (X & _). lia.
    - intros -> l layer x Y I. destruct (nth_error depth l) as [d|] eqn:D; [|apply nth_error_None in D; assert (l < length ls) by (apply nth_error_Some; congruence); lia]. rewrite (V l d layer D Y) in I. apply in_flat_map in I as (r & _ & I). apply in_map_iff in I as (p & <- & _).
      exists (p mod 9). split; [apply Nat.mod_upper_bound; lia|reflexivity].
  Qed.
End Circuit.
(** With correlated parameters and three operations, the rotations at the end of a cell have the parameters of those at its beginning. *)
Theorem C64_correlated : forall l r i p, theta true l r (15 * i + (p + 9)) = theta true l r (15 * i + p).
Proof. intros l r i p. unfold theta. replace (15 * i + (p + 9)) with (15 * i + p + 1 * 9) by lia. rewrite Nat.mod_add by lia. reflexivity. Qed.

(** * The observable *)
(** The observable is the sum of the Z of all qubits, with the weights w0, w1, ... when they are asked for. *)
Definition sign (x : asg) (i : nat) : R := (if x i then -1 else 1)%R.
Theorem C64_observable : forall n random_meas rho psi x, den rho (qcnn_deferred_obs n random_meas) psi x =
  (RtoC (fold_right Rplus 0%R (map (fun i => (if random_meas then rho ("w" ++ dec i)%string else 1) * sign x i) (seq 0 n))%R) * psi x)%C.
Proof.
  intros n rm rho psi x. unfold qcnn_deferred_obs. rewrite L_Den.den_add. generalize (seq 0 n) as l. induction l as [|i l IH]; [unfold dadd; cbn; unfold zeroop; ring|].
  change (dadd rho (map ?f (i :: l))) with (addop (den rho (f i)) (dadd rho (map f l))). unfold addop. rewrite IH. cbn [map fold_right].
  assert (Z : forall phi, den rho (BPrim PZ i) phi x = (RtoC (sign x i) * phi x)%C) by (intros phi; change (den rho (BPrim PZ i)) with (gate1 i (prim_mat PZ)); rewrite z_rdiag; reflexivity).
  rewrite RtoC_plus, RtoC_mult. destruct rm.
  - change (den rho (BScale (BPrim PZ i) (EVar ("w" ++ dec i)%string)) psi x) with (RtoC (rho ("w" ++ dec i)%string) * den rho (BPrim PZ i) psi x)%C. rewrite Z. ring.
  - rewrite Z. ring.
Qed.

(** * Alternation *)
(** In the first two layers, with an even number of qubits taking part, exactly the neighbours (j, j + 1) with j = r mod 2 are convolved. *)
Theorem C64_alternation : forall n l r j, l <= 1 -> Nat.even (n / 2 ^ l) = true ->
  (In (survivor l j, survivor l (j + 1)) (cell_pairs n l r) <-> j + 1 < n / 2 ^ l /\ Nat.odd j = Nat.odd r).
Proof.
  intros n l r j L E. set (K := n / 2 ^ l) in *. apply Nat.even_spec in E as [h E]. unfold cell_pairs. fold K. destruct (Nat.leb_spec l 1) as [_|]; [|lia]. cbn [andb].
  assert (INJ : forall i k, survivor l i = survivor l k -> i = k). { intros i k Q. unfold survivor in Q. pose proof (pow2_pos l). assert (1 <= 2 ^ l * (i + 1)) by nia. assert (1 <= 2 ^ l * (k + 1)) by nia. nia. }
  assert (OD : forall i, Nat.odd (2 * i) = false /\ Nat.odd (2 * i + 1) = true). { intros i. rewrite Nat.add_1_r, Nat.odd_succ. split; [rewrite <- Nat.negb_even; rewrite Nat.even_mul; reflexivity|rewrite Nat.even_mul; reflexivity]. }
  destruct (Nat.odd r); rewrite in_map_iff; split.
  - intros (i & X & I). apply in_seq in I. injection X as X1 X2. apply INJ in X1. subst j. assert ((K - 2) / 2 = h - 1) as D by (replace (K - 2) with ((h - 1) * 2) by lia; apply Nat.div_mul; lia). split; [lia|apply OD].
  - intros [X O]. apply Nat.odd_spec in O as [i ->]. exists i. split; [f_equal; f_equal; lia|]. apply in_seq. assert ((K - 2) / 2 = h - 1) as D by (replace (K - 2) with ((h - 1) * 2) by lia; apply Nat.div_mul; lia). lia.
  - intros (i & X & I). apply in_seq in I. injection X as X1 X2. apply INJ in X1. subst j. assert (K / 2 = h) as D by (replace K with (h * 2) by lia; apply Nat.div_mul; lia). split; [lia|apply OD].
  - intros [X O]. rewrite <- Nat.negb_even in O. apply negb_false_iff, Nat.even_spec in O as [i ->]. exists i. split; [f_equal; f_equal; lia|]. apply in_seq. assert (K / 2 = h) as D by (replace K with (h * 2) by lia; apply Nat.div_mul; lia). lia.
Qed.
(** The tutorial says that the pairs alternate in every layer; from the third layer on they do not: of the qubits 3, 7, 11, 15 of the third layer of 16 the
    second repetition does not convolve 7 and 11. *)
Theorem C64_alternation_refuted : exists n l r j, Nat.even (n / 2 ^ l) = true /\ j + 1 < n / 2 ^ l /\ Nat.odd j = Nat.odd r /\
  ~ In (survivor l j, survivor l (j + 1)) (pairs l r (indices n l)).
Proof. exists 16, 2, 1, 1. split; [reflexivity|]. split; [cbn; lia|]. split; [reflexivity|]. cbn. intros [H|[H|[]]]; discriminate H. Qed.
(** An even number of qubits is asked for so that every qubit has a partner, but half of it may be odd: with 6 qubits, qubit 5 takes part in the second layer but is in none of its cells. *)
Theorem C64_odd_refuted : exists n l q, Nat.even n = true /\ 2 ^ (l + 1) <= n /\ takes_part n l q /\ forall r, ~ In q (flat_map (fun ct => [fst ct; snd ct]) (pairs l r (indices n l))).
Proof.
  exists 6, 1, 5. split; [reflexivity|]. split; [cbn; lia|]. split; [split; [lia|reflexivity]|]. intros r. rewrite pairs_spec. unfold cell_pairs. cbn [Nat.leb andb]. destruct (Nat.odd r); cbn; intuition lia.
Qed.
(** Correlated parameters are to be shared by corresponding gates of the cells, but the nine parameters of a layer are handed out in turn to the fifteen places of
    a cell: the first gates of the first two cells of a repetition have different parameters, and with two operations so have the first and the last rotation of the control in a cell. *)
Theorem C64_correlated_refuted : theta true 0 0 (cell_size [RX_; RZ_; RX_] * 0) <> theta true 0 0 (cell_size [RX_; RZ_; RX_] * 1) /\
  theta true 0 0 0 <> theta true 0 0 (2 * length [RX_; RZ_] + 3).
Proof. split; discriminate. Qed.

(** * Examples *)
Definition cz (a b : nat) : block := BCtrl [a] (BPrim PZ b).
Lemma cz_qubits : forall a b q, In q (S_Den.qubits (cz a b)) -> q = a \/ q = b.
Proof. intros a b q H. cbn in H. intuition. Qed.
Lemma cz_vars : forall a b, bvars (cz a b) = []. Proof. reflexivity. Qed.
(** Eight qubits with the layers of the tutorial: 105 parameters, all different, and the third layer leaves all qubits but 3 and 7 alone. *)
Example C64_case : forall rho, exists circ, qcnn_circuit sorted_set cz [RX_; RZ_; RX_] false 8 8 [1; 1; 1] FOURIER RX_ rho = Some circ /\
  (exists fm layers, circ = BChain [fm; BChain layers] /\ NoDup (flat_map bvars layers) /\ length (flat_map bvars layers) = 105) /\
  (forall q, takes_part 8 2 q <-> q = 3 \/ q = 7) /\ Nat.even (8 / 2 ^ 2) = true.
Proof.
  intros rho. destruct (proj2 (C64_defined sorted_set sorted_set_order cz [RX_; RZ_; RX_] false 8 cz_qubits 8 [1; 1; 1] FOURIER RX_ rho fourier_range)) as [circ H].
  - split; [lia|]. split; [reflexivity|]. split; [repeat constructor|]. split; [lia|]. split; [cbn; lia|]. intros d [= <-]. lia.
  - exists circ. split; [exact H|]. split.
    + destruct (C64_parameters sorted_set sorted_set_order cz [RX_; RZ_; RX_] false 8 cz_vars _ _ _ _ _ _ H) as (fm & ls & E & L & V & N & _). exists fm, ls. split; [exact E|]. split; [apply N; reflexivity|].
      destruct ls as [|a [|b [|c [|? ?]]]]; try discriminate L. cbn [flat_map]. rewrite (V 0 1 a eq_refl eq_refl), (V 1 1 b eq_refl eq_refl), (V 2 1 c eq_refl eq_refl). vm_compute. reflexivity.
    + split; [|reflexivity]. intros q. split.
      * intros [A B]. destruct q as [|[|[|[|[|[|[|[|q]]]]]]]]; try discriminate B; try lia.
      * intros [-> | ->]; (split; [lia|reflexivity]).
Qed.
(** The second layer has its cells in one kron, which must not be empty: with fewer than eight qubits it cannot be repeated, although two layers are allowed. *)
Theorem C64_second_layer_refuted : forall rho, exists n depth, 4 <= n /\ Nat.even n = true /\ Forall (fun d => Nat.odd d = true) depth /\ 2 ^ length depth <= n /\
  qcnn_circuit sorted_set cz [RX_; RZ_; RX_] false n 1 depth FOURIER RX_ rho = None.
Proof.
  intros rho. exists 4, [1; 3]. split; [lia|]. split; [reflexivity|]. split; [repeat constructor|]. split; [cbn; lia|].
  destruct (qcnn_circuit sorted_set cz [RX_; RZ_; RX_] false 4 1 [1; 3] FOURIER RX_ rho) as [circ|] eqn:H; [|reflexivity]. exfalso.
  destruct (proj1 (C64_defined sorted_set sorted_set_order cz [RX_; RZ_; RX_] false 4 cz_qubits 1 [1; 3] FOURIER RX_ rho fourier_range) ltac:(eexists; exact H)) as (_ & _ & _ & _ & _ & X). specialize (X 3 eq_refl). lia.
Qed.
Example C64_feature_case : forall rho, exists fm, create_feature_map sorted_set 5 3 FOURIER RX_ rho = Some fm /\ map (@length nat) (input_supports 5 3 0 0 3) = [2; 2; 1].
Proof. intros rho. destruct (proj2 (C64_feature_map_defined sorted_set sorted_set_order 5 3 FOURIER RX_ rho fourier_range)) as [fm H]; [lia|]. exists fm. split; [exact H|reflexivity]. Qed.
Print Assumptions C64_circuit.
Print Assumptions C64_feature_map.
Print Assumptions C64_feature_map_defined.
Print Assumptions C64_pooling.
Print Assumptions C64_coverage.
Print Assumptions C64_defined.
Print Assumptions C64_fits.
Print Assumptions C64_parameters.
Print Assumptions C64_correlated.
Print Assumptions C64_observable.
Print Assumptions C64_alternation.
