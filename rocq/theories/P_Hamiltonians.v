(** C27: the Hamiltonian constructors build the textbook Hamiltonians. *)
From Coq Require Import String Ascii Reals List Arith Bool Lia Lra FunctionalExtensionality Permutation.
From Coquelicot Require Import Coquelicot.
From Coq Require Import List.
From Verif Require P_Register.
From Verif Require Import S_Ops S_Sets L_Ops M_QubitSupport M_Block S_Den L_Den M_BlockOps M_Tensor M_Transpile L_Support P_Operators L_Gates
  M_Checkpoint P_Checkpoint M_Names L_Names P_Hea M_Hamiltonians.
Import ListNotations.
Open Scope R_scope.
Open Scope C_scope.

(** * Specification *)
(** The sum of [f k x] over the entries [x] of a list, [k] being the position of the entry. *)
Definition sum_over {A} (l : list A) (f : nat -> A -> Op) : Op :=
  fold_right addop zeroop (map (fun kx => f (fst kx) (snd kx)) (combine (seq 0 (length l)) l)).
(** P (x) P on two qubits. *)
Definition pauli2 (p : prim) (e : nat * nat) : Op := seqop (gate1 (fst e) (prim_mat p)) (gate1 (snd e) (prim_mat p)).
(** ZZ; NN; XX + YY; XX + YY + ZZ; or what the user's function returns. *)
Definition textbook (rho : env) (k : interaction) (e : nat * nat) : Op :=
  match k with
  | IZZ => pauli2 PZ e
  | INN => pauli2 (PN true) e
  | IXY => addop (pauli2 PX e) (pauli2 PY e)
  | IXYZ => addop (addop (pauli2 PX e) (pauli2 PY e)) (pauli2 PZ e)
  | ICustom f => match f (fst e) (snd e) with Some b => den rho b | None => zeroop end
  end.
(** The coefficient of the entry [x] at position [k]: 1 by default, the k-th drawn number mapped to [-1, 1), the k-th given value, or
    the parameter named after the entry. *)
Definition weight {A} (rho : env) (s : strength) (random : option (nat -> R)) (suffix : A -> string) (k : nat) (x : A) : C :=
  match s with
  | SNone => match random with None => RtoC 1 | Some u => RtoC (2 * u k - 1) end
  | SArray l => ev rho (nth k l (ECst 0))
  | SPrefix p => RtoC (rho (p ++ "_" ++ suffix x)%string)
  end.
Definition pair_suffix (e : nat * nat) : string := (dec (fst e) ++ dec (snd e))%string.

(** * Proofs *)
Lemma dadd_map rho bs : dadd rho bs = fold_right addop zeroop (map (den rho) bs).
Proof. induction bs as [|b bs IH]; simpl; [reflexivity|]. rewrite <- IH. reflexivity. Qed.
Lemma sum_app l1 l2 : fold_right addop zeroop (l1 ++ l2) = addop (fold_right addop zeroop l1) (fold_right addop zeroop l2).
Proof.
  induction l1 as [|A l1 IH]; simpl.
  - extensionality psi. extensionality x. unfold addop, zeroop. ring.
  - rewrite IH. extensionality psi. extensionality x. unfold addop. ring.
Qed.
Lemma combine_weights {A} rho (g : nat -> A -> C) (data : list A) : forall ws j, length ws = length data ->
  (forall k w x, nth_error ws k = Some w -> nth_error data k = Some x -> ev rho w = g (j + k)%nat x) ->
  map (fun kx => (g (fst kx) (snd kx), snd kx)) (combine (seq j (length data)) data) = map (fun wx => (ev rho (fst wx), snd wx)) (combine ws data).
Proof.
  induction data as [|x data IH]; intros ws j L H; [destruct ws; reflexivity|]. destruct ws as [|w ws]; [discriminate|]. simpl. f_equal.
  - f_equal. rewrite (H 0%nat w x eq_refl eq_refl). f_equal. lia.
  - apply IH; [simpl in L; lia|]. intros k w' x' H1 H2. rewrite (H (S k) w' x' H1 H2). f_equal. lia.
Qed.
Lemma preprocess_spec {A} rho (data : list A) name s random ws : preprocess_strengths data name s random = Some ws ->
  length ws = length data /\ forall k w x, nth_error ws k = Some w -> nth_error data k = Some x -> ev rho w = weight rho s random name k x.
Proof.
  destruct s as [|l|p]; simpl.
  - intros H. injection H as <-. split; [destruct random; rewrite map_length, seq_length; reflexivity|]. intros k w x H1 H2.
    destruct random as [u|].
    + apply nth_error_In in H2 as I2. assert (K : (k < length data)%nat) by (apply nth_error_Some; congruence).
      rewrite nth_error_map in H1. rewrite (nth_error_nth' (seq 0 (length data)) 0%nat) in H1 by (rewrite seq_length; exact K).
      rewrite seq_nth in H1 by exact K. simpl in H1. injection H1 as <-. reflexivity.
    + apply nth_error_In in H1. apply in_map_iff in H1 as (y & <- & _). reflexivity.
  - destruct (Nat.eqb_spec (length l) (length data)) as [E|E]; [|discriminate]. intros H. injection H as <-. split; [exact E|].
    intros k w x H1 H2. rewrite (nth_error_nth _ _ _ H1). reflexivity.
  - intros H. injection H as <-. split; [apply map_length|]. intros k w x H1 H2. rewrite nth_error_map, H2 in H1. simpl in H1. injection H1 as <-. reflexivity.
Qed.
Lemma weighted_sum {A} rho (data : list A) ws (g : nat -> A -> C) (T : A -> Op) (bs : list block) : length ws = length data ->
  (forall k w x, nth_error ws k = Some w -> nth_error data k = Some x -> ev rho w = g k x) ->
  Forall2 (fun wx b => den rho b = scaleop (ev rho (fst wx)) (T (snd wx))) (combine ws data) bs ->
  dadd rho bs = sum_over data (fun k x => scaleop (g k x) (T x)).
Proof.
  intros L G F. rewrite dadd_map. unfold sum_over. f_equal.
  transitivity (map (fun cx : C * A => scaleop (fst cx) (T (snd cx))) (map (fun wx => (ev rho (fst wx), snd wx)) (combine ws data))).
  - rewrite map_map. clear L G. induction F as [|wx b l bs E F IH]; [reflexivity|]. simpl. rewrite E, IH. reflexivity.
  - rewrite <- (combine_weights rho g data ws 0 L G), map_map. reflexivity.
Qed.

Section T.
  Variable set_iter : list nat -> list nat.
  Hypothesis Hs : set_order set_iter.
  Variable is_ham : block -> bool.

  Lemma two_some p i j : two set_iter p i j = if Nat.eqb i j then None else Some (BKron [BPrim p i; BPrim p j]).
  Proof.
    unfold two, op_matmul. destruct (mk_kron_spec set_iter Hs [BPrim p i; BPrim p j]) as [E D].
    destruct (Nat.eqb_spec i j) as [Q|Q].
    - destruct D as [D|D]; [|exact D]. apply (proj1 E) in D as [_ F]. inversion F as [|? ? F1 F2]; subst. inversion F1 as [|? ? F3 F4]; subst.
      exfalso. apply (F3 j); simpl; tauto.
    - apply (proj2 E). split; [discriminate|]. constructor; [|constructor; constructor]. constructor; [|constructor].
      intros q H1 H2. simpl in H1, H2. lia.
  Qed.
  Lemma two_den rho p i j b : two set_iter p i j = Some b -> den rho b = pauli2 p (i, j).
  Proof. rewrite two_some. destruct (Nat.eqb i j); [discriminate|]. intros H. injection H as <-. reflexivity. Qed.
  Lemma int_den rho k f i j b : int_fn set_iter is_ham k = Some f -> f i j = Some b -> den rho b = textbook rho k (i, j).
  Proof.
    destruct k as [| | | |g]; simpl.
    - intros H. injection H as <-. apply two_den.
    - intros H. injection H as <-. apply two_den.
    - intros H. injection H as <-. unfold interaction_xy. destruct (two set_iter PX i j) as [x|] eqn:E1; [|discriminate]. simpl.
      destruct (two set_iter PY i j) as [y|] eqn:E2; [|discriminate]. simpl. intros H. injection H as <-. rewrite C05_add, (two_den rho PX i j x E1), (two_den rho PY i j y E2). reflexivity.
    - intros H. injection H as <-. unfold interaction_xyz. destruct (two set_iter PX i j) as [x|] eqn:E1; [|discriminate]. simpl.
      destruct (two set_iter PY i j) as [y|] eqn:E2; [|discriminate]. simpl. destruct (two set_iter PZ i j) as [z|] eqn:E3; [|discriminate]. simpl.
      intros H. injection H as <-. rewrite !C05_add, (two_den rho PX i j x E1), (two_den rho PY i j y E2), (two_den rho PZ i j z E3). reflexivity.
    - destruct (g 0%nat 1%nat) as [b0|]; [|discriminate]. destruct (is_ham b0); [|discriminate]. intros H. injection H as <-. intros ->. reflexivity.
  Qed.

  (** The operator of a constructed Hamiltonian is the weighted sum of the detuning over the nodes plus the weighted sum of the
      interaction over the edges (or over all pairs of nodes). *)
  Theorem C27_meaning : forall r inter det s_int s_det random all_pairs H,
    hamiltonian_factory set_iter is_ham r inter det s_int s_det random all_pairs = Some H ->
    forall rho, den rho H =
      addop
        (match det with
         | Some d => sum_over (hnodes r) (fun k q => scaleop (weight rho s_det (option_map fst random) dec k q) (gate1 q (prim_mat d)))
         | None => zeroop end)
        (match inter with
         | Some i => sum_over (if all_pairs then hpairs r else hedges r)
                       (fun k e => scaleop (weight rho s_int (option_map snd random) pair_suffix k e) (textbook rho i e))
         | None => zeroop end).
  Proof.
    intros r inter det s_int s_det random ap H E rho. unfold hamiltonian_factory in E.
    assert (E' : obind (match inter with None => Some None | Some k => option_map Some (int_fn set_iter is_ham k) end) (fun fn =>
        if match det with Some d => is_detuning d | None => true end then
          obind (preprocess_strengths (hnodes r) dec s_det (option_map fst random)) (fun ws_det =>
          let edge_data := if ap then hpairs r else hedges r in
          obind (preprocess_strengths edge_data edge_name s_int (option_map snd random)) (fun ws_int =>
          let single := match det with
                        | Some d => map (fun wn => op_scale (BPrim d (snd wn)) (fst wn)) (combine ws_det (hnodes r))
                        | None => [] end in
          obind (match fn with
                 | Some f => osequence (map (fun we => option_map (fun b => op_scale b (fst we)) (f (fst (snd we)) (snd (snd we)))) (combine ws_int edge_data))
                 | None => Some [] end) (fun pairs =>
          Some (BAdd (single ++ pairs)))))
        else None) = Some H) by (destruct inter, det; try exact E; discriminate).
    clear E. destruct (match inter with None => _ | Some k => _ end) as [fn|] eqn:Fn; [|discriminate]. simpl in E'.
    destruct (match det with Some d => _ | None => true end); [|discriminate].
    destruct (preprocess_strengths (hnodes r) dec s_det (option_map fst random)) as [wd|] eqn:Wd; [|discriminate]. simpl in E'.
    destruct (preprocess_strengths _ edge_name s_int (option_map snd random)) as [wi|] eqn:Wi; [|discriminate]. simpl in E'.
    destruct (match fn with Some f => _ | None => Some [] end) as [ps|] eqn:P; [|discriminate]. simpl in E'. injection E' as <-.
    destruct (preprocess_spec rho _ _ _ _ _ Wd) as [L1 G1]. destruct (preprocess_spec rho _ _ _ _ _ Wi) as [L2 G2].
    rewrite den_add, dadd_app. f_equal.
    - destruct det as [d|]; [|reflexivity]. apply (weighted_sum rho (hnodes r) wd _ (fun q => gate1 q (prim_mat d))); [exact L1|exact G1|].
      induction (combine wd (hnodes r)) as [|wn l IH]; [constructor|]. cbn [map]. constructor; [exact (C05_scale rho (BPrim d (snd wn)) (fst wn))|exact IH].
    - destruct inter as [k|].
      + destruct (int_fn set_iter is_ham k) as [f|] eqn:F; [|discriminate]. simpl in Fn. injection Fn as <-.
        apply (weighted_sum rho _ wi _ (textbook rho k)); [exact L2|exact G2|].
        apply osequence_map_some in P. induction P as [|we b l bs Q P IH]; [constructor|]. constructor; [|exact IH].
        destruct we as [w [i j]]. simpl in Q |- *. destruct (f i j) as [b0|] eqn:B; [|discriminate]. simpl in Q. injection Q as <-.
        rewrite C05_scale, (int_den rho k f i j b0 F B). reflexivity.
      + injection Fn as <-. injection P as <-. reflexivity.
  Qed.

  (** With a built-in interaction the construction succeeds exactly when a detuning or an interaction is given, the detuning is one
      of N, X, Y, Z, arrays of strengths have one entry per node and per edge, and no edge is a loop. *)
  Theorem C27_defined : forall r inter det s_int s_det random all_pairs, (forall f, inter <> Some (ICustom f)) ->
    ((exists H, hamiltonian_factory set_iter is_ham r inter det s_int s_det random all_pairs = Some H) <->
     (inter <> None \/ det <> None) /\
     (forall d, det = Some d -> In d [PN true; PX; PY; PZ]) /\
     (forall l, s_det = SArray l -> length l = length (hnodes r)) /\
     (forall l, s_int = SArray l -> length l = length (if all_pairs then hpairs r else hedges r)) /\
     (inter <> None -> forall e, In e (if all_pairs then hpairs r else hedges r) -> fst e <> snd e)).
  Proof.
    intros r inter det s_int s_det random ap Hc. set (edges := if ap then hpairs r else hedges r).
    assert (Pre : forall A (data : list A) name s rnd, (exists ws, preprocess_strengths data name s rnd = Some ws) <-> (forall l, s = SArray l -> length l = length data)).
    { intros A data name [|l|p] rnd; simpl.
      - split; [intros _ l Q; discriminate|intros _; eexists; reflexivity].
      - destruct (Nat.eqb_spec (length l) (length data)) as [Q|Q]; split.
        + intros _ l' Z. injection Z as <-. exact Q.
        + intros _. eexists; reflexivity.
        + intros [ws Z]. discriminate.
        + intros Z. exfalso. apply Q, Z. reflexivity.
      - split; [intros _ l Q; discriminate|intros _; eexists; reflexivity]. }
    assert (Det : forall d, is_detuning d = true <-> In d [PN true; PX; PY; PZ]).
    { intros d. split; [destruct d as [| | | | | | | | | |[|]]; intros Q; try discriminate Q; simpl; tauto|].
      simpl. intros [<-|[<-|[<-|[<-|[]]]]]; reflexivity. }
    assert (Fn : forall k, inter = Some k -> exists f, int_fn set_iter is_ham k = Some f /\ forall i j, (exists b, f i j = Some b) <-> i <> j).
    { intros k Q. assert (T2 : forall p i j, (exists b, two set_iter p i j = Some b) <-> i <> j).
      { intros p i j. rewrite two_some. destruct (Nat.eqb_spec i j) as [Z|Z]; split; intros W; try tauto; [destruct W; discriminate|eexists; reflexivity]. }
      destruct k as [| | | |f]; [| | | |exfalso; apply (Hc f Q)]; simpl; eexists; (split; [reflexivity|]); intros i j.
      - apply T2. - apply T2.
      - unfold interaction_xy. rewrite !two_some. destruct (Nat.eqb_spec i j) as [Z|Z]; simpl; split; intros W; try tauto; [destruct W; discriminate|eexists; reflexivity].
      - unfold interaction_xyz. rewrite !two_some. destruct (Nat.eqb_spec i j) as [Z|Z]; simpl; split; intros W; try tauto; [destruct W; discriminate|eexists; reflexivity]. }
    assert (Seq : forall k f ws, inter = Some k -> int_fn set_iter is_ham k = Some f -> length ws = length edges ->
       (exists ps, osequence (map (fun we : expr * (nat * nat) => option_map (fun b => op_scale b (fst we)) (f (fst (snd we)) (snd (snd we)))) (combine ws edges)) = Some ps) <->
       (forall e, In e edges -> fst e <> snd e)).
    { intros k f ws Q F L. destruct (Fn k Q) as (f' & F' & D). rewrite F in F'. injection F' as <-. clear - D L. revert ws L.
      induction edges as [|e es IH]; intros ws L; [destruct ws; simpl; (split; [intros _ e0 []|intros _; eexists; reflexivity])|].
      destruct ws as [|w ws]; [discriminate|]. simpl. specialize (D (fst e) (snd e)). destruct (f (fst e) (snd e)) as [b|] eqn:B; simpl.
      - destruct (IH ws ltac:(simpl in L; lia)) as [I1 I2]. destruct (osequence _) as [ps|] eqn:O; simpl.
        + split; [|intros _; eexists; reflexivity]. intros _ e' [<-|I]; [apply D; eexists; reflexivity|apply I1; [eexists; reflexivity|exact I]].
        + split; [intros [? Z]; discriminate|]. intros Z. exfalso. destruct I2 as [? W]; [intros e' I; apply Z; right; exact I|discriminate].
      - split; [intros [? Z]; discriminate|]. intros Z. exfalso. destruct (proj2 D (Z e (or_introl eq_refl))). discriminate. }
    destruct (Pre nat (hnodes r) dec s_det (option_map fst random)) as [P1 P1'].
    destruct (Pre (nat * nat)%type edges edge_name s_int (option_map snd random)) as [P2 P2']. unfold hamiltonian_factory. fold edges.
    split.
    - intros [H E]. assert (Hne : inter <> None \/ det <> None) by (destruct inter; [left; discriminate|]; destruct det; [right; discriminate|discriminate]).
      assert (D : match det with Some d => is_detuning d | None => true end = true).
      { destruct inter as [k|]; destruct det as [d|]; try reflexivity; simpl in E; try (destruct (int_fn set_iter is_ham k); [|discriminate]; simpl in E); destruct (is_detuning d); try reflexivity; discriminate. }
      assert (W1 : exists ws, preprocess_strengths (hnodes r) dec s_det (option_map fst random) = Some ws).
      { destruct (preprocess_strengths (hnodes r) dec s_det (option_map fst random)) as [ws|]; [eexists; reflexivity|]. exfalso.
        destruct inter as [k|]; destruct det as [d|]; try discriminate; simpl in E; try (destruct (int_fn set_iter is_ham k); [|discriminate]; simpl in E); try (destruct (is_detuning d); [|discriminate]); discriminate. }
      assert (W2 : exists ws, preprocess_strengths edges edge_name s_int (option_map snd random) = Some ws).
      { destruct W1 as [ws1 W1]. rewrite W1 in E.
        destruct (preprocess_strengths edges edge_name s_int (option_map snd random)) as [ws|]; [eexists; reflexivity|]. exfalso.
        destruct inter as [k|]; destruct det as [d|]; try discriminate; simpl in E; try (destruct (int_fn set_iter is_ham k); [|discriminate]; simpl in E); try (destruct (is_detuning d); [|discriminate]); discriminate. }
      split; [exact Hne|]. split; [intros d ->; apply Det, D|]. split; [apply P1, W1|]. split; [apply P2, W2|].
      intros Hi e Ie. destruct inter as [k|]; [|tauto]. destruct (Fn k eq_refl) as (f & F & _). destruct W1 as [w1 W1]. destruct W2 as [w2 W2].
      assert (L2 : length w2 = length edges) by exact (proj1 (preprocess_spec (fun _ => 0%R) _ _ _ _ _ W2)).
      apply (proj1 (Seq k f w2 eq_refl F L2)); [|exact Ie].
      destruct det as [d|]; rewrite F, W1, W2 in E; cbn [obind option_map] in E; cbv zeta in E; try rewrite D in E;
        (destruct (osequence _) as [ps|]; [eexists; reflexivity|discriminate]).
    - intros (Hne & D & W1 & W2 & Le). apply P1' in W1 as [w1 W1]. apply P2' in W2 as [w2 W2].
      assert (L2 : length w2 = length edges) by exact (proj1 (preprocess_spec (fun _ => 0%R) _ _ _ _ _ W2)).
      destruct inter as [k|].
      + destruct (Fn k eq_refl) as (f & F & _). destruct (proj2 (Seq k f w2 eq_refl F L2)) as [ps Q]; [apply Le; discriminate|].
        rewrite F, W1, W2. destruct det as [d|]; simpl.
        * rewrite (proj2 (Det d) (D d eq_refl)), Q. simpl. eexists; reflexivity.
        * rewrite Q. simpl. eexists; reflexivity.
      + destruct det as [d|]; [|destruct Hne; tauto]. rewrite W1, W2. simpl. rewrite (proj2 (Det d) (D d eq_refl)). eexists; reflexivity.
  Qed.
End T.

(** * The named Hamiltonians on [n] qubits *)
Definition sum_qubits (n : nat) (f : nat -> Op) : Op := fold_right addop zeroop (map f (seq 0 n)).
Definition ordered_pairs (n : nat) : list (nat * nat) := flat_map (fun i => map (pair i) (seq (S i) (n - S i))) (seq 0 n).
Definition sum_pairs (n : nat) (f : nat * nat -> Op) : Op := fold_right addop zeroop (map f (ordered_pairs n)).
(** The given coefficient of qubit [q], 1 by default. *)
Definition coef1 (rho : env) (t : option (list expr)) (q : nat) : C := match t with Some l => ev rho (nth q l (ECst 0)) | None => RtoC 1 end.
Definition coef2 (rho : env) (t : option (nat -> nat -> expr)) (e : nat * nat) : C := match t with Some m => ev rho (m (fst e) (snd e)) | None => RtoC 1 end.

Lemma filter_lt_seq i n : (i < n)%nat -> filter (fun x => Nat.ltb i x) (seq 0 n) = seq (S i) (n - S i).
Proof.
  intros L. replace n with (S i + (n - S i))%nat at 1 by lia. rewrite seq_app, filter_app.
  assert (A : forall l, (forall x, In x l -> (x <= i)%nat) -> filter (fun x => Nat.ltb i x) l = []).
  { induction l as [|y l IH]; intros H; [reflexivity|]. simpl. destruct (Nat.ltb_spec i y) as [Q|Q]; [specialize (H y (or_introl eq_refl)); lia|]. apply IH. intros x Hx. apply H. right. exact Hx. }
  assert (B : forall l, (forall x, In x l -> (i < x)%nat) -> filter (fun x => Nat.ltb i x) l = l).
  { induction l as [|y l IH]; intros H; [reflexivity|]. simpl. destruct (Nat.ltb_spec i y) as [Q|Q]; [|specialize (H y (or_introl eq_refl)); lia]. f_equal. apply IH. intros x Hx. apply H. right. exact Hx. }
  rewrite A, B; [reflexivity| |].
  - intros x Hx. apply in_seq in Hx. lia.
  - intros x Hx. apply in_seq in Hx. lia.
Qed.
Lemma alltoall_edges n : hedges (alltoall n) = ordered_pairs n.
Proof.
  unfold alltoall, ordered_pairs, hedges.
  assert (A : forall l, (forall i, In i l -> (i < n)%nat) ->
    filter (fun x => Nat.ltb (fst x) (snd x)) (list_prod l (seq 0 n)) = flat_map (fun i => map (pair i) (seq (S i) (n - S i))) l).
  { induction l as [|i l IH]; intros H; [reflexivity|]. simpl. rewrite filter_app, IH by (intros; apply H; right; assumption). f_equal.
    rewrite <- (filter_lt_seq i n) by (apply H; left; reflexivity). clear IH H. induction (seq 0 n) as [|y m IH]; [reflexivity|]. cbn [map filter fst snd].
    destruct (Nat.ltb i y); simpl; rewrite IH; reflexivity. }
  apply A. intros i Hi. apply in_seq in Hi. lia.
Qed.
Lemma sum_over_map {A} (l : list A) (f : nat -> A -> Op) (g : A -> Op) : (forall k x, nth_error l k = Some x -> f k x = g x) ->
  sum_over l f = fold_right addop zeroop (map g l).
Proof.
  intros H. unfold sum_over. f_equal. assert (B : forall l' j, (forall k x, nth_error l' k = Some x -> f (j + k)%nat x = g x) ->
    map (fun kx : nat * A => f (fst kx) (snd kx)) (combine (seq j (length l')) l') = map g l').
  { induction l' as [|x l' IH]; intros j Q; [reflexivity|]. simpl. f_equal; [rewrite <- (Q 0%nat x eq_refl); f_equal; lia|].
    apply IH. intros k y E. rewrite <- (Q (S k) y E). f_equal. lia. }
  apply B. intros k x E. apply H. exact E.
Qed.
Lemma seq_nth_error k n q : nth_error (seq 0 n) k = Some q -> q = k.
Proof.
  intros H. assert (K : (k < n)%nat) by (rewrite <- (seq_length n 0); apply nth_error_Some; congruence).
  rewrite (nth_error_nth' _ 0%nat) in H by (rewrite seq_length; exact K). rewrite seq_nth in H by exact K. simpl in H. congruence.
Qed.
Lemma qubit_weights rho n t A : sum_over (seq 0 n) (fun k q => scaleop (weight rho (match t with Some l => SArray l | None => SNone end) None dec k q) (A q))
  = sum_qubits n (fun q => scaleop (coef1 rho t q) (A q)).
Proof. apply sum_over_map. intros k q H. apply seq_nth_error in H as ->. destruct t; reflexivity. Qed.
Lemma pair_weights rho n t A :
  sum_over (hedges (alltoall n)) (fun k e => scaleop (weight rho (match t with Some m => SArray (map (fun e => m (fst e) (snd e)) (hedges (alltoall n))) | None => SNone end) None pair_suffix k e) (A e))
  = sum_pairs n (fun e => scaleop (coef2 rho t e) (A e)).
Proof.
  unfold sum_pairs. rewrite <- alltoall_edges. apply sum_over_map. intros k e H. destruct t as [m|]; [|reflexivity]. unfold weight, coef2. f_equal. f_equal.
  apply nth_error_nth. rewrite nth_error_map, H. reflexivity.
Qed.
Lemma addop_zero_l A : addop zeroop A = A.
Proof. extensionality psi. extensionality x. unfold addop, zeroop. ring. Qed.
Lemma addop_zero_r A : addop A zeroop = A.
Proof. extensionality psi. extensionality x. unfold addop, zeroop. ring. Qed.

Section Named.
  Variable set_iter : list nat -> list nat.
  Hypothesis Hs : set_order set_iter.
  Variable is_ham : block -> bool.

  (** Sum of z_q Z_q. *)
  Theorem C27_total_magnetization : forall n z H, total_magnetization set_iter is_ham n z = Some H ->
    forall rho, den rho H = sum_qubits n (fun q => scaleop (coef1 rho z q) (gate1 q (prim_mat PZ))).
  Proof.
    intros n z H E rho. unfold total_magnetization in E. rewrite (C27_meaning set_iter Hs is_ham _ _ _ _ _ _ _ _ E rho). rewrite addop_zero_r.
    exact (qubit_weights rho n z (fun q => gate1 q (prim_mat PZ))).
  Qed.

  (** Sum of z_q Z_q plus the sum over pairs i < j of zz_ij Z_i Z_j. *)
  Theorem C27_zz_hamiltonian : forall n z zz H, zz_hamiltonian set_iter is_ham n z zz = Some H ->
    forall rho, den rho H =
      addop (sum_qubits n (fun q => scaleop (coef1 rho z q) (gate1 q (prim_mat PZ))))
            (sum_pairs n (fun e => scaleop (coef2 rho zz e) (pauli2 PZ e))).
  Proof.
    intros n z zz H E rho. unfold zz_hamiltonian in E. rewrite (C27_meaning set_iter Hs is_ham _ _ _ _ _ _ _ _ E rho). f_equal.
    - exact (qubit_weights rho n z (fun q => gate1 q (prim_mat PZ))).
    - exact (pair_weights rho n zz (pauli2 PZ)).
  Qed.

  (** The same plus the sum of x_q X_q. *)
  Theorem C27_ising_hamiltonian : forall n x z zz H, ising_hamiltonian set_iter is_ham n x z zz = Some H ->
    forall rho, den rho H =
      addop (addop (sum_qubits n (fun q => scaleop (coef1 rho z q) (gate1 q (prim_mat PZ))))
                   (sum_pairs n (fun e => scaleop (coef2 rho zz e) (pauli2 PZ e))))
            (sum_qubits n (fun q => scaleop (coef1 rho x q) (gate1 q (prim_mat PX)))).
  Proof.
    intros n x z zz H E rho. unfold ising_hamiltonian in E. destruct (zz_hamiltonian set_iter is_ham n z zz) as [a|] eqn:E1; [|discriminate]. cbn [obind] in E.
    destruct (hamiltonian_factory set_iter is_ham (alltoall n) None (Some PX) SNone (match x with Some l => SArray l | None => SNone end) None false) as [b|] eqn:E2; [|discriminate].
    cbn [obind] in E. injection E as <-. rewrite C05_add, (C27_zz_hamiltonian _ _ _ _ E1 rho). f_equal.
    rewrite (C27_meaning set_iter Hs is_ham _ _ _ _ _ _ _ _ E2 rho), addop_zero_r. exact (qubit_weights rho n x (fun q => gate1 q (prim_mat PX))).
  Qed.

  Lemma pair_lt n e : In e (hedges (alltoall n)) -> (fst e < snd e < n)%nat.
  Proof. intros H. apply filter_In in H as [P Q]. apply Nat.ltb_lt in Q. destruct e as [i j]. apply in_prod_iff in P as [P1 P2]. apply in_seq in P1, P2. simpl in *. lia. Qed.

  (** The three constructors succeed for every number of qubits when the coefficient lists have one entry per qubit. *)
  Theorem C27_named_defined : forall n x z zz,
    (forall l, x = Some l -> length l = n) -> (forall l, z = Some l -> length l = n) ->
    (exists H, total_magnetization set_iter is_ham n z = Some H) /\ (exists H, zz_hamiltonian set_iter is_ham n z zz = Some H) /\
    (exists H, ising_hamiltonian set_iter is_ham n x z zz = Some H).
  Proof.
    intros n x z zz Lx Lz.
    assert (D : forall inter d s_int t, (forall f, inter <> Some (ICustom f)) -> In d [PN true; PX; PY; PZ] -> (forall l, t = Some l -> length l = n) ->
      (forall l, s_int = SArray l -> length l = length (hedges (alltoall n))) ->
      exists H, hamiltonian_factory set_iter is_ham (alltoall n) inter (Some d) s_int (match t with Some l => SArray l | None => SNone end) None false = Some H).
    { intros inter d s_int t Hc Hd Ht Hl. apply (C27_defined set_iter Hs is_ham); [exact Hc|]. split; [right; discriminate|]. split; [intros d' Q; injection Q as <-; exact Hd|].
      split; [intros l Q; simpl; rewrite seq_length; apply Ht; destruct t; [injection Q as ->; reflexivity|discriminate]|]. split; [exact Hl|].
      intros _ e He. apply pair_lt in He. lia. }
    assert (ZZ : exists H, zz_hamiltonian set_iter is_ham n z zz = Some H).
    { apply D; [intros f Q; discriminate|simpl; tauto|exact Lz|]. intros l Q. destruct zz as [m|]; [|discriminate]. injection Q as <-. rewrite map_length. reflexivity. }
    split; [apply D; [intros f Q; discriminate|simpl; tauto|exact Lz|intros l Q; discriminate]|]. split; [exact ZZ|].
    destruct ZZ as [a Ea]. destruct (D None PX SNone x) as [b Eb]; [intros f Q; discriminate|simpl; tauto|exact Lx|intros l Q; discriminate|].
    unfold ising_hamiltonian. rewrite Ea. cbn [obind]. rewrite Eb. eexists; reflexivity.
  Qed.

  (** * Observables: shift + scale * H *)
  Lemma global_identity_some n : n <> 0%nat -> global_identity set_iter n = Some (BKron (map (BPrim PI_) (seq 0 n))).
  Proof.
    intros N. apply (proj2 (proj1 (mk_kron_spec set_iter Hs _))). split; [destruct n; [tauto|discriminate]|].
    apply ordpairs_map, ordpairs; [apply seq_NoDup|]. intros x y _ _ Ne q H1 H2. simpl in H1, H2. lia.
  Qed.
  Theorem C27_observable : forall n inter det scale shift O, create_observable set_iter is_ham n inter det scale shift = Some O ->
    exists H, hamiltonian_factory set_iter is_ham (alltoall n) inter det SNone SNone None false = Some H /\
      forall rho, den rho O = addop (scaleop (ev rho shift) idop) (scaleop (ev rho scale) (den rho H)).
  Proof.
    intros n inter det scale shift O E. unfold create_observable in E. destruct n as [|n]; [discriminate|].
    rewrite global_identity_some in E by discriminate. cbn [obind] in E.
    destruct (hamiltonian_factory _ _ _ _ _ _ _ _ _) as [h|]; [|discriminate]. cbn [obind] in E. injection E as <-. exists h. split; [reflexivity|]. intros rho.
    rewrite den_add. unfold dadd. cbn [fold_right]. rewrite addop_zero_r.
    assert (I : den rho (BKron (map (BPrim PI_) (seq 0 (S n)))) = idop).
    { transitivity (dchain rho (map (BPrim PI_) (seq 0 (S n)))); [reflexivity|]. rewrite dchain_seqs. apply seqs_ids.
      intros A HA. rewrite map_map in HA. apply in_map_iff in HA as (q & <- & _). apply den_I. }
    rewrite !C05_scale. f_equal. exact (f_equal (scaleop (ev rho shift)) I).
  Qed.

  (** * The configured Ising observable *)
  Lemma csum_op l psi x : fold_right addop zeroop l psi x = csum (fun A : Op => A psi x) l.
  Proof. induction l as [|A l IH]; [reflexivity|]. simpl. unfold addop at 1. rewrite IH. reflexivity. Qed.
  Lemma ZZ_Z_den rho i j : i <> j -> exists b, ZZ_Z_hamiltonian set_iter i j = Some b /\
    forall psi x, den rho b psi x = pauli2 PZ (i, j) psi x +
      (if Nat.eqb i 0 then gate1 j (prim_mat PZ) psi x else if Nat.eqb i 1 && Nat.eqb j 2 then gate1 0 (prim_mat PZ) psi x else RtoC 0).
  Proof.
    intros N. unfold ZZ_Z_hamiltonian. rewrite (two_some set_iter Hs). destruct (Nat.eqb_spec i j) as [Q|Q]; [tauto|]. cbn [obind].
    destruct (Nat.eqb i 0); [|destruct (Nat.eqb i 1 && Nat.eqb j 2)]; eexists; (split; [reflexivity|]); intros psi x; try rewrite C05_iadd; unfold addop; try reflexivity.
    change (den rho (BKron [BPrim PZ i; BPrim PZ j])) with (pauli2 PZ (i, j)). ring.
  Qed.
  Lemma extra_sum n (f : nat -> C) : (3 <= n)%nat ->
    csum (fun e : nat * nat => if Nat.eqb (fst e) 0 then f (snd e) else if Nat.eqb (fst e) 1 && Nat.eqb (snd e) 2 then f 0%nat else RtoC 0) (ordered_pairs n) = csum f (seq 0 n).
  Proof.
    intros L. unfold ordered_pairs. rewrite csum_flat_map. destruct n as [|[|[|n]]]; try lia. replace (seq 0 (S (S (S n)))) with (0 :: 1 :: seq 2 (S n))%nat by reflexivity.
    cbn [csum]. match goal with |- _ + (_ + ?z) = _ => replace z with (RtoC 0) end.
    - rewrite !csum_map. cbn [fst snd Nat.eqb]. replace (S (S (S n)) - 1)%nat with (S (S n)) by lia. replace (S (S (S n)) - 2)%nat with (S n) by lia.
      replace (csum (fun a => if true && Nat.eqb a 2 then f 0%nat else RtoC 0) (seq 2 (S n))) with (f 0%nat).
      + cbn [seq csum]. change (fun a : nat => f a) with f. ring.
      + cbn [seq csum Nat.eqb andb]. rewrite csum_zero'; [ring|]. intros j Hj. apply in_seq in Hj. destruct j as [|[|[|j]]]; try lia. reflexivity.
    - symmetry. apply csum_zero'. intros i Hi. apply in_seq in Hi. rewrite csum_map. apply csum_zero'. intros j _. cbn [fst snd]. destruct i as [|[|i]]; try lia. reflexivity.
  Qed.

  (** On three or more qubits the observable made from [ising_hamiltonian_config] is shift + scale * (the Ising Hamiltonian with unit
      coefficients). *)
  Theorem C27_ising_config : forall n scale shift O H, (3 <= n)%nat ->
    ising_hamiltonian_config set_iter is_ham n scale shift = Some O -> ising_hamiltonian set_iter is_ham n None None None = Some H ->
    forall rho, den rho O = addop (scaleop (ev rho shift) idop) (scaleop (ev rho scale) (den rho H)).
  Proof.
    intros n scale shift O H L E E' rho. destruct (C27_observable _ _ _ _ _ _ E) as (h & Eh & Ho). rewrite Ho. f_equal. f_equal.
    rewrite (C27_ising_hamiltonian _ _ _ _ _ E' rho), (C27_meaning set_iter Hs is_ham _ _ _ _ _ _ _ _ Eh rho).
    cbn [option_map]. rewrite (pair_weights rho n None (textbook rho (ICustom (ZZ_Z_hamiltonian set_iter)))).
    pose proof (qubit_weights rho n None (fun q => gate1 q (prim_mat PX))) as QX. cbv iota in QX. simpl option_map. simpl hnodes. rewrite QX. clear QX.
    extensionality psi. extensionality x. unfold addop, sum_pairs, sum_qubits. rewrite !csum_op, !csum_map.
    replace (csum (fun a => scaleop (coef2 rho None a) (textbook rho (ICustom (ZZ_Z_hamiltonian set_iter)) a) psi x) (ordered_pairs n)) with
      (csum (fun a => scaleop (coef2 rho None a) (pauli2 PZ a) psi x) (ordered_pairs n) + csum (fun q => scaleop (coef1 rho None q) (gate1 q (prim_mat PZ)) psi x) (seq 0 n)); [ring|].
    rewrite <- extra_sum by exact L. rewrite <- csum_plus. apply csum_ext. intros e He. rewrite <- alltoall_edges in He. apply pair_lt in He.
    destruct e as [i j]. cbn [fst snd] in *. destruct (ZZ_Z_den rho i j) as (b & Eb & D); [lia|]. unfold scaleop, coef1, coef2, textbook. cbn [fst snd]. rewrite Eb, D.
    destruct (Nat.eqb i 0); [ring|]. destruct (Nat.eqb i 1 && Nat.eqb j 2); ring.
  Qed.
  (** On two qubits the term Z on qubit 0 is missing. *)
  Theorem C27_ising_config_refuted : (forall b, is_ham b = true) -> exists O H : block,
    ising_hamiltonian_config set_iter is_ham 2 (ECst 1) (ECst 0) = Some O /\ ising_hamiltonian set_iter is_ham 2 None None None = Some H /\
    forall rho, den rho O <> den rho H.
  Proof.
    intros Ht. destruct (C27_named_defined 2 None None None) as (_ & _ & [H EH]); [intros; discriminate|intros; discriminate|].
    assert (EO : exists O, ising_hamiltonian_config set_iter is_ham 2 (ECst 1) (ECst 0) = Some O).
    { unfold ising_hamiltonian_config, create_observable. rewrite global_identity_some by discriminate. cbn [obind]. unfold hamiltonian_factory. cbn [int_fn].
      destruct (ZZ_Z_den (fun _ => 0%R) 0 1) as (b & Eb & _); [lia|]. rewrite Eb, Ht. simpl. rewrite Eb. simpl. eexists; reflexivity. }
    destruct EO as [O EO]. exists O, H. split; [exact EO|]. split; [exact EH|]. intros rho Q.
    destruct (C27_observable _ _ _ _ _ _ EO) as (h & Eh & Ho). rewrite Ho, (C27_ising_hamiltonian _ _ _ _ _ EH rho), (C27_meaning set_iter Hs is_ham _ _ _ _ _ _ _ _ Eh rho) in Q.
    cbn [option_map] in Q. rewrite (pair_weights rho 2 None (textbook rho (ICustom (ZZ_Z_hamiltonian set_iter)))) in Q.
    apply (f_equal (fun A : Op => A (fun x => if x 0%nat || x 1%nat then RtoC 0 else RtoC 1) (fun _ => false))) in Q.
    destruct (ZZ_Z_den rho 0 1) as (b & Eb & D); [lia|]. 
    unfold sum_pairs, sum_qubits, sum_over, ordered_pairs, addop, scaleop, idop in Q. simpl in Q. rewrite Eb in Q. simpl in Q. rewrite D in Q.
    unfold zeroop, pauli2, seqop, gate1, gate in Q. simpl in Q. apply (f_equal fst) in Q. simpl in Q. lra.
  Qed.
End Named.

(** * Parameter names *)
(** The parameters multiplying the terms of a Hamiltonian. *)
Definition coefficient_names (H : block) : list string :=
  match H with BAdd bs => flat_map (fun t => match t with BScale _ (EVar s) => [s] | _ => [] end) bs | _ => [] end.
Open Scope nat_scope.
Open Scope string_scope.
Fixpoint all_digits (s : string) : bool := match s with EmptyString => true | String c r => is_digit c && all_digits r end.
Lemma all_digits_app a b : all_digits (a ++ b) = all_digits a && all_digits b.
Proof. induction a as [|c a IH]; simpl; [reflexivity|]. rewrite IH. apply andb_assoc. Qed.
Lemma dec_digits n : all_digits (dec n) = true.
Proof. unfold dec. destruct (digits_spec n n (Nat.le_refl n)) as (_ & F & _). induction F as [|c l D F IH]; [reflexivity|]. simpl. rewrite D, IH. reflexivity. Qed.
Lemma digits_no_underscore a b : all_digits (a ++ "_" ++ b) = false.
Proof. rewrite all_digits_app. simpl. apply andb_false_r. Qed.
Lemma underscore_split : forall p p' d d', all_digits d = true -> all_digits d' = true -> p ++ "_" ++ d = p' ++ "_" ++ d' -> p = p' /\ d = d'.
Proof.
  induction p as [|c p IH]; intros [|c' p'] d d' D D' E.
  - simpl in E. injection E as ->. split; reflexivity.
  - simpl in E. injection E as _ ->. pose proof (digits_no_underscore p' d') as Q. simpl in Q. congruence.
  - simpl in E. injection E as _ <-. pose proof (digits_no_underscore p d) as Q. simpl in Q. congruence.
  - simpl in E. injection E as <- E. destruct (IH p' d d' D D' E) as [-> ->]. split; reflexivity.
Qed.
Lemma parse_fold l : forall a, fold_left (fun acc c => 10 * acc + digit_val c) l a = a * 10 ^ List.length l + parse_int l.
Proof.
  induction l as [|c l IH]; intros a; [unfold parse_int; simpl; lia|]. unfold parse_int. cbn [fold_left List.length]. rewrite (IH (10 * a + digit_val c)), (IH (10 * 0 + digit_val c)), Nat.pow_succ_r'. ring.
Qed.
Lemma parse_app l l' : parse_int (l ++ l')%list = parse_int l * 10 ^ List.length l' + parse_int l'.
Proof. unfold parse_int. rewrite fold_left_app. apply parse_fold. Qed.
Lemma digits_length fuel : forall n, n <= fuel -> n < 1000 -> List.length (digits fuel n) = if Nat.ltb n 10 then 1 else if Nat.ltb n 100 then 2 else 3.
Proof.
  induction fuel as [|f IH]; intros n L B; [replace n with 0 by lia; reflexivity|]. cbn [digits]. destruct (Nat.ltb_spec n 10) as [Q|Q]; [reflexivity|].
  rewrite app_length. assert (D : n / 10 < n) by (apply Nat.div_lt; lia). assert (D2 : n = 10 * (n / 10) + n mod 10) by (apply Nat.div_mod; lia). pose proof (Nat.mod_upper_bound n 10 ltac:(lia)).
  rewrite (IH (n / 10)) by lia. simpl List.length. destruct (Nat.ltb_spec (n / 10) 10); destruct (Nat.ltb_spec n 100); try lia. destruct (Nat.ltb_spec (n / 10) 100); lia.
Qed.
(** Pairs i < j below 112 are spelled differently; (1, 112) and (11, 12) are not. *)
Lemma ordered_small_names i j i' j' : i < j < 112 -> i' < j' < 112 -> dec i ++ dec j = dec i' ++ dec j' -> (i, j) = (i', j').
Proof.
  intros B B' E. unfold dec in E. rewrite <- !of_chars_app in E. apply of_chars_inj in E.
  pose proof (f_equal parse_int E) as P. pose proof (f_equal (@List.length ascii) E) as L. rewrite !parse_app in P. rewrite !app_length in L.
  assert (S : forall n, parse_int (digits n n) = n) by (intros n; apply digits_spec, Nat.le_refl). rewrite !S in P.
  rewrite !(digits_length _ _ (Nat.le_refl _)) in L by lia. rewrite !(digits_length _ _ (Nat.le_refl _)) in P by lia.
  clear S E. destruct (Nat.ltb_spec i 10), (Nat.ltb_spec j 10), (Nat.ltb_spec i' 10), (Nat.ltb_spec j' 10), (Nat.ltb_spec i 100), (Nat.ltb_spec j 100), (Nat.ltb_spec i' 100), (Nat.ltb_spec j' 100);
    try lia; simpl in P; f_equal; lia.
Qed.

Section NamesThm.
  Variable set_iter : list nat -> list nat.
  Hypothesis Hs : set_order set_iter.
  Variable is_ham : block -> bool.

  Lemma names_of_single d ws l : is_detuning d = true ->
    flat_map (fun t => match t with BScale _ (EVar s) => [s] | _ => [] end) (map (fun wn : expr * nat => op_scale (BPrim d (snd wn)) (fst wn)) (combine ws l))
    = flat_map (fun wn : expr * nat => match fst wn with EVar s => [s] | _ => [] end) (combine ws l).
  Proof.
    intros D. induction (combine ws l) as [|wn c IH]; [reflexivity|]. cbn [map flat_map]. rewrite IH. f_equal. destruct d as [| | | | | | | | | |[|]]; try discriminate; reflexivity.
  Qed.

  (** With prefixes for both strengths (different from one another) and a built-in interaction, every term has its own parameter,
      when the first qubit of every edge is at most 10, or when edges run from lower to higher qubits below 112. *)
  Theorem C27_names : forall r k d p p' all_pairs H,
    hamiltonian_factory set_iter is_ham r (Some k) (Some d) (SPrefix p') (SPrefix p) None all_pairs = Some H ->
    (forall f, k <> ICustom f) -> p <> p' -> NoDup (hnodes r) ->
    let edges := if all_pairs then hpairs r else hedges r in
    NoDup edges -> (forall e, In e edges -> fst e <= 10) \/ (forall e, In e edges -> fst e < snd e < 112) ->
    coefficient_names H = app (map (fun q => p ++ "_" ++ dec q) (hnodes r)) (map (fun e => p' ++ "_" ++ dec (fst e) ++ dec (snd e)) edges) /\
    NoDup (coefficient_names H).
  Proof.
    intros r k d p p' ap H E Hc Np Nn edges Ne Small.
    assert (N : coefficient_names H = app (map (fun q => p ++ "_" ++ dec q) (hnodes r)) (map (fun e => p' ++ "_" ++ dec (fst e) ++ dec (snd e)) edges)).
    { unfold hamiltonian_factory in E. fold edges in E. cbn [preprocess_strengths] in E. destruct (int_fn set_iter is_ham k) as [f|] eqn:F; [|discriminate]. cbn [option_map obind] in E.
      destruct (is_detuning d) eqn:D; [|discriminate]. cbv zeta in E. destruct (osequence _) as [ps|] eqn:P; [|discriminate]. cbn [obind] in E. injection E as <-.
      cbn [coefficient_names]. rewrite flat_map_app. f_equal.
      - etransitivity; [exact (names_of_single d _ _ D)|]. clear. induction (hnodes r) as [|q l IH]; [reflexivity|]. cbn [map combine flat_map fst]. rewrite IH. reflexivity.
      - assert (Fb : forall i j b, f i j = Some b -> (exists bs, b = BKron bs) \/ (exists bs, b = BAdd bs)).
        { intros i j b. destruct k as [| | | |g]; [| | | |exfalso; apply (Hc g eq_refl)]; cbn [int_fn] in F; injection F as <-.
          - unfold interaction_zz. rewrite (two_some set_iter Hs). destruct (Nat.eqb i j); [discriminate|]. intros Q. injection Q as <-. left. eexists; reflexivity.
          - unfold interaction_nn. rewrite (two_some set_iter Hs). destruct (Nat.eqb i j); [discriminate|]. intros Q. injection Q as <-. left. eexists; reflexivity.
          - unfold interaction_xy. rewrite !(two_some set_iter Hs). destruct (Nat.eqb i j); [discriminate|]. cbn [obind]. intros Q. injection Q as <-. right. eexists; reflexivity.
          - unfold interaction_xyz. rewrite !(two_some set_iter Hs). destruct (Nat.eqb i j); [discriminate|]. cbn [obind]. intros Q. injection Q as <-. right. eexists; reflexivity. }
        clear - P Fb. revert ps P. induction edges as [|e es IH]; intros ps P; [injection P as <-; reflexivity|]. cbn [map combine osequence fst snd] in P.
        destruct (f (fst e) (snd e)) as [b|] eqn:B; [|discriminate]. cbn [option_map obind] in P. destruct (osequence _) as [ps'|]; [|discriminate]. cbn [obind] in P. injection P as <-.
        cbn [flat_map map]. rewrite (IH ps' eq_refl). destruct (Fb _ _ _ B) as [[bs ->]|[bs ->]]; reflexivity. }
    split; [exact N|]. rewrite N.
    assert (ND : forall l l' : list string, NoDup l -> NoDup l' -> (forall x, In x l -> In x l' -> False) -> NoDup (l ++ l')%list).
    { induction l as [|a l IH]; intros l' H1 H2 H3; [exact H2|]. inversion H1 as [|? ? X Y]; subst. simpl. constructor.
      - intros I. apply in_app_iff in I as [I|I]; [tauto|]. apply (H3 a); [left; reflexivity|exact I].
      - apply IH; [exact Y|exact H2|]. intros x I J. apply (H3 x); [right; exact I|exact J]. }
    assert (NM : forall A (g : A -> string) l, NoDup l -> (forall x y, In x l -> In y l -> g x = g y -> x = y) -> NoDup (map g l)).
    { intros A g l Hn. induction Hn as [|a l X Y IH]; intros G; [constructor|]. simpl. constructor.
      - intros I. apply in_map_iff in I as (y & Q & Iy). apply G in Q; [subst; tauto|right; exact Iy|left; reflexivity].
      - apply IH. intros x y Ix Iy. apply G; right; assumption. }
    apply ND.
    - apply NM; [exact Nn|]. intros x y _ _ Q. apply underscore_split in Q as [_ Q]; [apply dec_inj, Q|apply dec_digits|apply dec_digits].
    - apply NM; [exact Ne|]. intros x y Ix Iy Q. apply underscore_split in Q as [_ Q]; [|rewrite all_digits_app, !dec_digits; reflexivity|rewrite all_digits_app, !dec_digits; reflexivity].
      destruct x as [i j], y as [i' j']. cbn [fst snd] in Q. destruct Small as [Sm|Sm].
      + apply dec_two_digits in Q; [|apply (Sm (i, j) Ix)|apply (Sm (i', j') Iy)]. destruct Q as [-> ->]. reflexivity.
      + apply ordered_small_names; [apply (Sm (i, j) Ix)|apply (Sm (i', j') Iy)|exact Q].
    - intros s I J. apply in_map_iff in I as (q & Q1 & _). apply in_map_iff in J as (e & Q2 & _). rewrite <- Q2 in Q1.
      apply underscore_split in Q1 as [Q _]; [tauto|apply dec_digits|rewrite all_digits_app, !dec_digits; reflexivity].
  Qed.
  (** The all-to-all register of up to 112 qubits is covered. *)
  Corollary C27_names_alltoall : forall n k d p p' H, n <= 112 ->
    hamiltonian_factory set_iter is_ham (alltoall n) (Some k) (Some d) (SPrefix p') (SPrefix p) None false = Some H ->
    (forall f, k <> ICustom f) -> p <> p' -> NoDup (coefficient_names H).
  Proof.
    intros n k d p p' H L E Hc Np. apply (C27_names (alltoall n) k d p p' false H E Hc Np).
    - apply seq_NoDup.
    - simpl. apply NoDup_filter. apply P_Register.prod_nodup; apply seq_NoDup.
    - right. intros e I. apply pair_lt in I. lia.
  Qed.
  (** On a register of 113 qubits the pairs (1, 112) and (11, 12) share the parameter p_1112, whatever else is built. *)
  Theorem C27_names_refuted : exists e e', In e (hedges (alltoall 113)) /\ In e' (hedges (alltoall 113)) /\ e <> e' /\
    forall (rho : env) p k k', weight rho (SPrefix p) None pair_suffix k e = weight rho (SPrefix p) None pair_suffix k' e'.
  Proof.
    exists (1, 112), (11, 12). assert (I : forall i j, i < j < 113 -> In (i, j) (hedges (alltoall 113))).
    { intros i j B. apply filter_In. split; [apply in_prod_iff; split; apply in_seq; lia|]. apply Nat.ltb_lt. simpl. lia. }
    split; [apply I; lia|]. split; [apply I; lia|]. split; [intros Q; discriminate|]. intros rho p k k'. reflexivity.
  Qed.
End NamesThm.

(** * Examples *)
Open Scope list_scope.
Example ex_factory : exists H, hamiltonian_factory (nodup Nat.eq_dec) (fun _ => true) (HReg [0; 1; 2] [(0, 1); (1, 2); (2, 0)]) (Some IXYZ) (Some (PN true))
  (SPrefix "j") (SArray [ECst (RtoC 1); EVar "d"; ECst (RtoC 3)]) None false = Some H /\ coefficient_names H = ["d"; "j_01"; "j_12"; "j_20"]%string.
Proof. eexists. split; reflexivity. Qed.
Example ex_loop : hamiltonian_factory (nodup Nat.eq_dec) (fun _ => true) (HReg [0; 1] [(1, 1)]) (Some IZZ) None SNone SNone None false = None.
Proof. reflexivity. Qed.
Example ex_ising_config : exists O H, ising_hamiltonian_config (nodup Nat.eq_dec) (fun _ => true) 4 (EVar "a") (EVar "b") = Some O /\
  ising_hamiltonian (nodup Nat.eq_dec) (fun _ => true) 4 None None None = Some H.
Proof. eexists. eexists. split; reflexivity. Qed.
Example ex_names : exists H, hamiltonian_factory (nodup Nat.eq_dec) (fun _ => true) (alltoall 3) (Some INN) (Some PX) (SPrefix "g") (SPrefix "h") None false = Some H /\
  coefficient_names H = ["h_0"; "h_1"; "h_2"; "g_01"; "g_02"; "g_12"]%string.
Proof. eexists. split; reflexivity. Qed.

(** use_all_node_pairs: every pair of different qubits of the register, the smaller one first, once. *)
Theorem C27_all_node_pairs : forall r, (forall i j, In (i, j) (hpairs r) <-> In i (hnodes r) /\ In j (hnodes r) /\ (i < j)%nat) /\
  (NoDup (hnodes r) -> NoDup (hpairs r)).
Proof.
  intros r. split.
  - intros i j. unfold hpairs. rewrite filter_In, in_prod_iff, Nat.ltb_lt. cbn. tauto.
  - intros N. unfold hpairs. apply NoDup_filter.
    assert (K : forall l l' : list nat, NoDup l -> NoDup l' -> NoDup (list_prod l l')).
    { intros l l' Nl Nl'. induction Nl as [|a l Ha Nl IH]; [constructor|]. cbn [list_prod].
      assert (M : NoDup (map (fun y => (a, y)) l')) by (apply FinFun.Injective_map_NoDup; [intros x y Q; congruence|exact Nl']).
      revert M. assert (D : forall x, In x (map (fun y : nat => (a, y)) l') -> ~ In x (list_prod l l')).
      { intros [u v] H J. apply in_map_iff in H as (y & H & _). injection H as <- <-. apply in_prod_iff in J as [J _]. exact (Ha J). }
      revert D. generalize (map (fun y : nat => (a, y)) l'). intros m D M. induction M as [|x m Hx M IHm]; [exact IH|]. cbn [app]. constructor.
      - rewrite in_app_iff. intros [J|J]; [exact (Hx J)|]. apply (D x); [left; reflexivity|exact J].
      - apply IHm. intros z Hz. apply D. right. exact Hz. }
    apply K; exact N.
Qed.
Example C27_all_node_pairs_witness : hpairs (HReg [2; 0; 1] []) = [(0, 2); (0, 1); (1, 2)].
Proof. reflexivity. Qed.
Print Assumptions C27_all_node_pairs.
Print Assumptions C27_meaning.
Print Assumptions C27_defined.
Print Assumptions C27_total_magnetization.
Print Assumptions C27_zz_hamiltonian.
Print Assumptions C27_ising_hamiltonian.
Print Assumptions C27_named_defined.
Print Assumptions C27_observable.
Print Assumptions C27_ising_config.
Print Assumptions C27_ising_config_refuted.
Print Assumptions C27_names.
Print Assumptions C27_names_alltoall.
Print Assumptions C27_names_refuted.
