(** C75: observables keep their meaning when they are exchanged with OpenFermion. *)
From Coq Require Import String Reals List Arith Bool Lia Lra FunctionalExtensionality Permutation.
From Coquelicot Require Import Coquelicot.
From Coq Require Import List.
From Verif Require Import S_Ops S_Sets S_Den M_Block M_BlockOps M_Tensor M_Transpile L_Ops L_Den P_Operators
  P_Backend P_Overlap P_States P_Dagger P_Pulses M_OpenFermion.
Import ListNotations.
Open Scope R_scope.
Open Scope C_scope.

(** * Specification *)
(** The operator of a Pauli letter, of a term, of a list of weighted terms. *)
Definition letter_op (g : nat * pauli) : Op := gate1 (fst g) (prim_mat (pauli_prim (snd g))).
Definition term_op (t : term) : Op := fold_right (fun g k => seqop (letter_op g) k) idop t.
Definition terms_op (ts : list (term * C)) : Op :=
  fold_right (fun tc k => addop (scaleop (snd tc) (term_op (fst tc))) k) zeroop ts.
(** The operator a QubitOperator stands for. *)
Definition meaning (O : qubit_operators) (x : qop O) : Op := terms_op (q_terms O x).

(** What is expected of openfermion.  [exact x y]: adding [y] to [x] drops no non-zero coefficient (openfermion
    removes coefficients below a tolerance). [x * y] is the product of matrices: [y] acts first. *)
Record contract (O : qubit_operators) (exact : qop O -> qop O -> Prop) : Prop := {
  c_pauli : forall p q, q_terms O (q_pauli O p q) = [([(q, p)], RtoC 1)];
  c_unit : q_terms O (q_unit O) = [([], RtoC 1)];
  c_mul : forall x y, meaning O (q_mul O x y) = seqop (meaning O y) (meaning O x);
  c_add : forall x y, exact x y -> meaning O (q_add O x y) = addop (meaning O x) (meaning O y);
  c_scale : forall x k, meaning O (q_scale O x k) = scaleop k (meaning O x);
  c_terms : forall x t c, In (t, c) (q_terms O x) -> NoDup (map fst t);
  c_keys : forall x, NoDup (map fst (q_terms O x));
  c_count : forall x q, (exists t c p, In (t, c) (q_terms O x) /\ In (q, p) t) -> (q < q_count O x)%nat;
  c_count0 : forall x, (forall t c, In (t, c) (q_terms O x) -> t = []) -> q_count O x = 0%nat
}.

(** The block with the parts of every chain in the opposite order. *)
Fixpoint backwards (b : block) : block :=
  match b with
  | BScale b' e => BScale (backwards b') e
  | BChain bs => BChain (rev (map backwards bs))
  | BKron bs => BKron (rev (map backwards bs))
  | BAdd bs => BAdd (map backwards bs)
  | _ => b
  end.

(** The parts of every chain commute, those of every kron act on different qubits. *)
Definition commute (A B : Op) : Prop := seqop A B = seqop B A.
Fixpoint commuting (rho : env) (b : block) : Prop :=
  let all := fix all bs := match bs with [] => True | x :: r => commuting rho x /\ all r end in
  match b with
  | BScale b' _ => commuting rho b'
  | BChain bs => all bs /\ ForallOrdPairs (fun x y => commute (den rho x) (den rho y)) bs
  | BKron bs => all bs /\ ForallOrdPairs (fun x y => forall q, In q (qubits x) -> In q (qubits y) -> False) bs
  | BAdd bs => all bs
  | _ => True
  end.

(** Blocks made of X, Y, Z and I with non-empty compositions. *)
Fixpoint pauli_block (b : block) : bool :=
  match b with
  | BPrim PX _ | BPrim PY _ | BPrim PZ _ | BPrim PI_ _ => true
  | BScale b' _ => pauli_block b'
  | BChain bs | BKron bs | BAdd bs => negb (match bs with [] => true | _ => false end) && forallb pauli_block bs
  | _ => false
  end.

(** * Conversion to OpenFermion *)
Section To.
  Variable O : qubit_operators.
  Variable exact : qop O -> qop O -> Prop.
  Variable rho0 : env.

  (** No sum made during the conversion drops a coefficient. *)
  Fixpoint exact_sums (x : qop O) (r : list (qop O)) : Prop :=
    match r with [] => True | y :: r' => exact x y /\ exact_sums (q_add O x y) r' end.
  Fixpoint clean (b : block) : Prop :=
    let all := fix all bs := match bs with [] => True | x :: r => clean x /\ all r end in
    match b with
    | BScale b' _ => clean b'
    | BChain bs | BKron bs => all bs
    | BAdd bs => all bs /\ match osequence (map (to_openfermion O rho0) bs) with
                            | Some (x :: r) => exact_sums x r
                            | _ => True
                            end
    | _ => True
    end.
End To.

Definition product (l : list Op) : Op := fold_right seqop idop l.
Lemma product_app l1 l2 : product (l1 ++ l2) = seqop (product l1) (product l2).
Proof. unfold product. induction l1 as [|A l IH]; cbn [app fold_right]; [reflexivity|]. rewrite IH. reflexivity. Qed.
Lemma den_product rho bs : den rho (BChain bs) = product (map (den rho) bs).
Proof. cbn [den]. unfold product. induction bs as [|b bs IH]; cbn [map fold_right]; [reflexivity|]. now rewrite IH. Qed.
Lemma den_product_k rho bs : den rho (BKron bs) = product (map (den rho) bs).
Proof. exact (den_product rho bs). Qed.
Lemma product_comm A l : Forall (commute A) l -> commute A (product l).
Proof.
  induction 1 as [|B l HB _ IH]; [reflexivity|]. unfold commute in *. cbn [product fold_right]. fold (product l).
  rewrite <- seqop_assoc, HB, !seqop_assoc, IH. reflexivity.
Qed.
Lemma product_rev l : ForallOrdPairs commute l -> product (rev l) = product l.
Proof.
  induction 1 as [|A l HA _ IH]; [reflexivity|]. cbn [rev]. rewrite product_app, IH. cbn [product fold_right]. fold (product l).
  rewrite seqop_id_r. symmetry. exact (product_comm A l HA).
Qed.
Lemma pairs_map {A B} (f : A -> B) (R : B -> B -> Prop) l : ForallOrdPairs (fun x y => R (f x) (f y)) l -> ForallOrdPairs R (map f l).
Proof. induction 1 as [|a l Ha _ IH]; cbn; constructor; [|exact IH]. rewrite Forall_map. exact Ha. Qed.

Lemma backwards_commuting rho b : commuting rho b -> den rho (backwards b) = den rho b.
Proof.
  induction b as [p q|k br qs|r q e|q a b c|a b|c a b|cs b IH|cs b IH|b e IH|bs IH|bs IH|bs IH|m qs|g t IH]
    using block_ind'; try reflexivity.
  - cbn. intros H. now rewrite IH.
  - intros [H1 H2]. cbn [backwards]. rewrite !den_product, map_rev, map_map.
    assert (E : map (fun x => den rho (backwards x)) bs = map (den rho) bs).
    { clear H2. induction IH as [|b l Hb _ IHl]; [reflexivity|]. cbn. destruct H1 as [H1 H1']. rewrite Hb, IHl by assumption. reflexivity. }
    rewrite E. apply product_rev, pairs_map, H2.
  - intros [H1 H2]. cbn [backwards]. rewrite !den_product_k, map_rev, map_map.
    assert (E : map (fun x => den rho (backwards x)) bs = map (den rho) bs).
    { clear H2. induction IH as [|b l Hb _ IHl]; [reflexivity|]. cbn. destruct H1 as [H1 H1']. rewrite Hb, IHl by assumption. reflexivity. }
    rewrite E. apply product_rev, pairs_map. clear - H2. induction H2 as [|a l Ha _ IH]; constructor; [|exact IH].
    rewrite Forall_forall in *. intros x I. apply den_comm, Ha, I.
  - intros H1. cbn [backwards den]. induction IH as [|b l Hb _ IHl]; [reflexivity|]. cbn. destruct H1 as [H1 H1'].
    rewrite Hb by assumption. f_equal. apply IHl, H1'.
Qed.

Section ToProofs.
  Variable O : qubit_operators.
  Variable exact : qop O -> qop O -> Prop.
  Variable rho0 : env.
  Hypothesis K : contract O exact.
  Notation to := (to_openfermion O rho0).

  Lemma letter_op_id g : seqop (letter_op g) idop = letter_op g.
  Proof. apply seqop_id_r. Qed.
  Lemma meaning_pauli p q : meaning O (q_pauli O p q) = gate1 q (prim_mat (pauli_prim p)).
  Proof. unfold meaning. rewrite (c_pauli _ _ K). cbn [terms_op fold_right fst snd term_op]. rewrite addop_zero_r, scaleop_one, seqop_id_r. reflexivity. Qed.
  Lemma meaning_unit : meaning O (q_unit O) = idop.
  Proof. unfold meaning. rewrite (c_unit _ _ K). cbn [terms_op fold_right fst snd term_op]. now rewrite addop_zero_r, scaleop_one. Qed.

  Lemma mul_all ys As : Forall2 (fun y A => meaning O y = A) ys As -> forall x,
    meaning O (fold_left (q_mul O) ys x) = seqop (product (rev As)) (meaning O x).
  Proof.
    induction 1 as [|y A ys As HA _ IH]; intros x; [reflexivity|]. cbn [fold_left rev]. rewrite IH, (c_mul _ _ K), product_app, HA.
    cbn [product fold_right]. rewrite seqop_id_r, seqop_assoc. reflexivity.
  Qed.
  Lemma add_all ys As : Forall2 (fun y A => meaning O y = A) ys As -> forall x, exact_sums O exact x ys ->
    meaning O (fold_left (q_add O) ys x) = addop (meaning O x) (fold_right addop zeroop As).
  Proof.
    induction 1 as [|y A ys As HA _ IH]; intros x E; cbn [fold_left fold_right]; [now rewrite addop_zero_r|]. destruct E as [E1 E2].
    rewrite IH by exact E2. rewrite (c_add _ _ K) by exact E1. rewrite HA. apply addop_assoc.
  Qed.
  Lemma all_parts (bs : list block) xs :
    Forall (fun b => forall x, clean O exact rho0 b -> to b = Some x -> meaning O x = den rho0 (backwards b)) bs ->
    (fix all bs := match bs with [] => True | x :: r => clean O exact rho0 x /\ all r end) bs ->
    osequence (map to bs) = Some xs ->
    Forall2 (fun x A => meaning O x = A) xs (map (fun b => den rho0 (backwards b)) bs).
  Proof.
    intros IH. revert xs. induction IH as [|b l Hb _ IHl]; intros xs H E.
    - cbn in E. injection E as <-. constructor.
    - cbn [map osequence] in E. destruct H as [H H']. destruct (to b) as [x|] eqn:Eb; [|discriminate E]. cbn [obind] in E.
      destruct (osequence (map to l)) as [ys|]; [|discriminate E]. cbn in E. injection E as <-.
      cbn [map]. constructor; [apply Hb; auto|apply IHl; auto].
  Qed.

  Lemma to_meaning b : forall x, clean O exact rho0 b -> to b = Some x -> meaning O x = den rho0 (backwards b).
  Proof.
    induction b as [p q|k br qs|r q e|q a b c|a b|c a b|cs b IH|cs b IH|b e IH|bs IH|bs IH|bs IH|m qs|g t IH]
      using block_ind'; intros x C E; try discriminate E.
    - destruct p; try discriminate E; cbn in E; injection E as <-; cbn [backwards den].
      + apply (meaning_pauli PauliX q).
      + apply (meaning_pauli PauliY q).
      + apply (meaning_pauli PauliZ q).
      + rewrite meaning_unit. symmetry. apply (den_I rho0 q).
    - cbn in E. destruct (to b) as [y|]; [|discriminate E]. injection E as <-. rewrite (c_scale _ _ K). cbn [backwards den].
      rewrite (IH y); auto.
    - cbn [to_openfermion] in E. destruct (osequence (map to bs)) as [xs|] eqn:S; [|discriminate E]. cbn [obind] in E.
      pose proof (all_parts bs xs IH C S) as P. cbn [backwards]. rewrite den_product, map_rev, map_map.
      destruct P as [|y A ys As Hy P]; [discriminate E|]. injection E as <-. rewrite (mul_all _ _ P). cbn [rev]. rewrite product_app, Hy.
      cbn [product fold_right]. now rewrite seqop_id_r.
    - cbn [to_openfermion] in E. destruct (osequence (map to bs)) as [xs|] eqn:S; [|discriminate E]. cbn [obind] in E.
      pose proof (all_parts bs xs IH C S) as P. cbn [backwards]. rewrite den_product_k, map_rev, map_map.
      destruct P as [|y A ys As Hy P]; [discriminate E|]. injection E as <-. rewrite (mul_all _ _ P). cbn [rev]. rewrite product_app, Hy.
      cbn [product fold_right]. now rewrite seqop_id_r.
    - cbn [to_openfermion] in E. destruct (osequence (map to bs)) as [xs|] eqn:S; [|discriminate E]. cbn [obind] in E.
      destruct C as [C C2]. rewrite S in C2. pose proof (all_parts bs xs IH C S) as P. cbn [backwards den].
      assert (D : fold_right (fun b k => addop (den rho0 b) k) zeroop (map backwards bs)
                  = fold_right addop zeroop (map (fun b => den rho0 (backwards b)) bs)).
      { clear. induction bs as [|b bs IH]; cbn; [reflexivity|]. now rewrite IH. }
      rewrite D. destruct P as [|y A ys As Hy P]; [discriminate E|]. injection E as <-. rewrite (add_all _ _ P) by exact C2. now rewrite Hy.
  Qed.
End ToProofs.

(** * Conversion from OpenFermion *)
Section FromProofs.
  Variable O : qubit_operators.
  Variable exact : qop O -> qop O -> Prop.
  Variable si : list nat -> list nat.
  Hypothesis K : contract O exact.
  Hypothesis Hs : set_order si.

  Lemma den_gates rho t : den rho (BKron (map convert_gate t)) = term_op t.
  Proof. cbn [den]. induction t as [|g t IH]; [reflexivity|]. cbn [map fold_right]. unfold term_op in *. cbn [fold_right]. rewrite IH. reflexivity. Qed.
  Lemma gates_disjoint t : NoDup (map fst t) -> ForallOrdPairs L_Support.disjoint_blocks (map convert_gate t).
  Proof.
    induction t as [|g t IH]; cbn [map]; intros H; constructor; inversion H as [|? ? H1 H2]; subst; [|apply IH; exact H2].
    apply Forall_forall. intros b I. apply in_map_iff in I. destruct I as (h & <- & I). intros k [<-|[]] [E|[]]. apply H1. rewrite <- E. apply in_map, I.
  Qed.
  Lemma term_ok rho n t : NoDup (map fst t) -> exists b, convert_term si n t = Some b /\ den rho b = term_op t.
  Proof.
    intros H. destruct t as [|g [|h t]].
    - eexists. split; [reflexivity|]. apply den_I.
    - eexists. split; [reflexivity|]. cbn [term_op fold_right]. rewrite seqop_id_r. reflexivity.
    - eexists. split; [|apply (den_gates rho (g :: h :: t))]. unfold convert_term.
      apply kron_ok; [exact Hs|discriminate|]. exact (gates_disjoint (g :: h :: t) H).
  Qed.
  Lemma terms_seq rho n ts : (forall t c, In (t, c) ts -> NoDup (map fst t)) ->
    exists bs, osequence (map (fun tc => option_map (fun b => op_scale b (ECst (snd tc))) (convert_term si n (fst tc))) ts) = Some bs
      /\ length bs = length ts /\ den rho (BAdd bs) = terms_op ts.
  Proof.
    induction ts as [|[t c] ts IH]; intros H; [exists []; repeat split; reflexivity|].
    destruct IH as (bs & E & L & D); [intros t' c' I; apply (H t' c'); right; exact I|].
    destruct (term_ok rho n t) as (b & Eb & Db); [apply (H t c); left; reflexivity|].
    exists (op_scale b (ECst c) :: bs). split; [|split].
    - cbn [map osequence fst snd]. rewrite Eb. cbn [option_map obind]. rewrite E. reflexivity.
    - cbn. now rewrite L.
    - cbn [den fold_right] in *. rewrite D, C05_scale, Db. reflexivity.
  Qed.
  Lemma terms_block rho n ts : ts <> [] -> (forall t c, In (t, c) ts -> NoDup (map fst t)) ->
    exists b, convert_terms si n ts = Some b /\ den rho b = terms_op ts.
  Proof.
    intros N H. destruct (terms_seq rho n ts H) as (bs & E & L & D). unfold convert_terms. rewrite E.
    destruct ts as [|tc ts]; [contradiction|]. destruct bs as [|b [|b' bs]]; [discriminate L| |].
    - exists b. split; [reflexivity|]. rewrite <- D. cbn [den fold_right]. now rewrite addop_zero_r.
    - eexists. split; [reflexivity|exact D].
  Qed.
  Lemma count_zero x : q_count O x = 0%nat -> q_terms O x = [] \/ exists c, q_terms O x = [([], c)].
  Proof.
    intros H. assert (E : forall t c, In (t, c) (q_terms O x) -> t = []).
    { intros t c I. destruct t as [|[q p] t]; [reflexivity|]. exfalso.
      assert ((q < q_count O x)%nat) by (apply (c_count _ _ K); exists ((q, p) :: t), c, p; split; [exact I|left; reflexivity]). lia. }
    pose proof (c_keys _ _ K x) as U. destruct (q_terms O x) as [|[t c] [|[t' c'] ts]]; [left; reflexivity|right; exists c; f_equal; f_equal; apply (E t c); left; reflexivity|].
    exfalso. inversion U as [|? ? U1 _]; subst. apply U1. left. cbn. rewrite (E t c), (E t' c'); [reflexivity|right; left; reflexivity|left; reflexivity].
  Qed.
  Lemma from_cases rho x :
    (q_terms O x = [] /\ from_openfermion O si x = Raised) \/
    (exists c, q_terms O x = [([], c)] /\ from_openfermion O si x = IdentityOnMinusOne c) \/
    (exists t c b, In (t, c) (q_terms O x) /\ t <> [] /\ from_openfermion O si x = Converted b /\ den rho b = meaning O x).
  Proof.
    unfold from_openfermion. destruct (q_count O x) as [|n] eqn:N.
    - destruct (count_zero x N) as [E|[c E]]; rewrite E; [left; split; reflexivity|right; left; exists c; split; reflexivity].
    - assert (T : exists t c, In (t, c) (q_terms O x) /\ t <> []).
      { assert (D : (forall t c, In (t, c) (q_terms O x) -> t = []) \/ exists t c, In (t, c) (q_terms O x) /\ t <> []).
        { clear. induction (q_terms O x) as [|[t c] ts IH]; [left; intros t c []|]. destruct t as [|g t].
          - destruct IH as [IH|(t & c' & I & H)]; [left|right; exists t, c'; split; [right; exact I|exact H]].
            intros t c' [E|I]; [congruence|eapply IH; eassumption].
          - right. exists (g :: t), c. split; [left; reflexivity|discriminate]. }
        destruct D as [D|D]; [|exact D]. rewrite (c_count0 _ _ K x D) in N. discriminate N. }
      destruct T as (t & c & I & H). right. right. exists t, c.
      destruct (terms_block rho (S n) (q_terms O x)) as (b & Eb & Db); [intros E; rewrite E in I; destruct I|intros t' c'; apply (c_terms _ _ K)|].
      exists b. split; [exact I|]. split; [exact H|]. split; [|exact Db]. destruct (q_terms O x); [destruct I|]. now rewrite Eb.
  Qed.
End FromProofs.

(** * Theorems *)
(** A block converted to OpenFermion stands for the block whose chains are read in the opposite order. *)
Theorem C75_to : forall O exact rho0 b x, contract O exact -> clean O exact rho0 b ->
  to_openfermion O rho0 b = Some x -> meaning O x = den rho0 (backwards b).
Proof. intros O exact rho0 b x K. apply to_meaning, K. Qed.

(** So it stands for the block itself when the parts of its chains commute. *)
Theorem C75_to_commuting : forall O exact rho0 b x, contract O exact -> clean O exact rho0 b -> commuting rho0 b ->
  to_openfermion O rho0 b = Some x -> meaning O x = den rho0 b.
Proof. intros O exact rho0 b x K C H E. rewrite (C75_to O exact rho0 b x K C E). apply backwards_commuting, H. Qed.

(** Exactly the blocks made of X, Y, Z, I and non-empty compositions are converted. *)
Theorem C75_domain : forall O rho0 b, (exists x, to_openfermion O rho0 b = Some x) <-> pauli_block b = true.
Proof.
  intros O rho0 b.
  assert (S : forall bs, Forall (fun b => (exists x, to_openfermion O rho0 b = Some x) <-> pauli_block b = true) bs ->
    forall f, (exists x, obind (osequence (map (to_openfermion O rho0) bs)) (reduce f) = Some x) <->
      negb (match bs with [] => true | _ => false end) && forallb pauli_block bs = true).
  { intros bs IH f.
    assert (Q : (exists xs, osequence (map (to_openfermion O rho0) bs) = Some xs) <-> forallb pauli_block bs = true).
    { induction IH as [|b1 l Hb _ IHl]; [split; [reflexivity|intros _; exists []; reflexivity]|]. cbn [map osequence forallb].
      rewrite Bool.andb_true_iff, <- Hb, <- IHl. split.
      - intros [xs E]. destruct (to_openfermion O rho0 b1) as [x|]; [|discriminate E]. cbn in E. destruct (osequence (map (to_openfermion O rho0) l)); [eauto|discriminate E].
      - intros [[x ->] [ys ->]]. cbn. eauto. }
    rewrite Bool.andb_true_iff, <- Q. split.
    - intros [x E]. destruct (osequence (map (to_openfermion O rho0) bs)) as [xs|] eqn:S; [|discriminate E]. split; [|eauto]. destruct bs; [cbn in S; injection S as <-; discriminate E|reflexivity].
    - intros [N [xs E]]. rewrite E. destruct bs as [|b0 bs]; [discriminate N|]. cbn [map osequence] in E. destruct (to_openfermion O rho0 b0); [|discriminate E]. cbn in E.
      destruct (osequence (map (to_openfermion O rho0) bs)); [|discriminate E]. cbn in E. injection E as <-. cbn. eauto. }
  induction b as [p q|k br qs|r q e|q a b c|a b|c a b|cs b IH|cs b IH|b e IH|bs IH|bs IH|bs IH|m qs|g t IH]
    using block_ind'; try (split; [intros [x E]; discriminate E|intros E; discriminate E]).
  - destruct p; try (split; [intros [x E]; discriminate E|intros E; discriminate E]); (split; [reflexivity|intros _; eexists; reflexivity]).
  - cbn [pauli_block]. rewrite <- IH. cbn. split; intros [x E]; [destruct (to_openfermion O rho0 b); [eauto|discriminate E]|rewrite E; cbn; eauto].
  - apply (S bs IH (q_mul O)).
  - apply (S bs IH (q_mul O)).
  - apply (S bs IH (q_add O)).
Qed.

(** An operator with a term other than the identity becomes a block with the same meaning, for every value of
    the parameters. *)
Theorem C75_from : forall O exact si x, contract O exact -> set_order si ->
  (exists t c, In (t, c) (q_terms O x) /\ t <> []) ->
  exists b, from_openfermion O si x = Converted b /\ forall rho, den rho b = meaning O x.
Proof.
  intros O exact si x K Hs (t & c & I & N).
  assert (G : forall rho, exists b, from_openfermion O si x = Converted b /\ den rho b = meaning O x).
  { intros rho. destruct (from_cases O exact si K Hs rho x) as [[E _]|[(c' & E & _)|(t' & c' & b & _ & _ & E & D)]].
    - rewrite E in I. destruct I.
    - rewrite E in I. destruct I as [I|[]]. congruence.
    - eauto. }
  destruct (G (fun _ => 0%R)) as (b & E & _). exists b. split; [exact E|]. intros rho. destruct (G rho) as (b' & E' & D). congruence.
Qed.

(** The block acts on no other qubits than those OpenFermion counts, wherever the identity terms are put. *)
Theorem C75_width : forall O exact si x b q, contract O exact -> set_order si ->
  from_openfermion O si x = Converted b -> In q (qubits b) -> (q < q_count O x)%nat.
Proof.
  intros O exact si x b q K Hs E I. unfold from_openfermion in E.
  pose proof (c_count _ _ K x) as B. destruct (q_count O x) as [|n]; [destruct (q_terms O x) as [|[t c] r]; discriminate E|].
  assert (T : forall t, (forall k p, In (k, p) t -> (k < S n)%nat) -> forall b k, convert_term si (S n) t = Some b -> In k (qubits b) -> (k < S n)%nat).
  { intros t H b' k Eb Ik. destruct t as [|g [|h t]]; cbn [convert_term] in Eb.
    - injection Eb as <-. destruct Ik as [<-|[]]. lia.
    - injection Eb as <-. destruct Ik as [<-|[]]. apply (H (fst g) (snd g)). left. apply surjective_pairing.
    - destruct (L_Support.mk_kron_spec si Hs (map convert_gate (g :: h :: t))) as [_ [M|M]]; rewrite M in Eb; [|discriminate Eb].
      injection Eb as <-. cbn [qubits] in Ik. change (In k (flat_map qubits (map convert_gate (g :: h :: t)))) in Ik.
      apply in_flat_map in Ik. destruct Ik as (y & Iy & Ik). apply in_map_iff in Iy. destruct Iy as (a & <- & Ia).
      destruct Ik as [<-|[]]. apply (H (fst a) (snd a)). rewrite <- surjective_pairing. exact Ia. }
  assert (S : forall b e, qubits (op_scale b e) = qubits b) by (intros b' e'; destruct b' as [p r| | | | | | | | | | | | |]; try reflexivity; destruct p; reflexivity).
  assert (L : forall ts bs, (forall t c, In (t, c) ts -> forall k p, In (k, p) t -> (k < Datatypes.S n)%nat) ->
    osequence (map (fun tc => option_map (fun b => op_scale b (ECst (snd tc))) (convert_term si (Datatypes.S n) (fst tc))) ts) = Some bs ->
    forall y k, In y bs -> In k (qubits y) -> (k < Datatypes.S n)%nat).
  { induction ts as [|[t c] ts IH]; intros bs H Eb y k Iy Ik; cbn [map osequence fst snd] in Eb; [injection Eb as <-; destruct Iy|].
    destruct (convert_term si (Datatypes.S n) t) as [b'|] eqn:Et; [|discriminate Eb]. cbn [option_map obind] in Eb.
    match type of Eb with obind ?o _ = _ => destruct o as [r|] eqn:Er; [|discriminate Eb] end. injection Eb as <-.
    destruct Iy as [<-|Iy].
    - rewrite S in Ik. eapply T; [|exact Et|exact Ik]. intros k' p J. eapply H; [left; reflexivity|exact J].
    - eapply IH; [|reflexivity|exact Iy|exact Ik]. intros t' c' J. apply (H t' c'). right. exact J. }
  destruct (q_terms O x) as [|tc ts] eqn:Q; [discriminate E|].
  destruct (convert_terms si (Datatypes.S n) (tc :: ts)) as [b'|] eqn:Ec; [|destruct tc; discriminate E].
  assert (b' = b) by (destruct tc; congruence). subst b'. unfold convert_terms in Ec.
  match type of Ec with match ?o with _ => _ end = _ => destruct o as [bs|] eqn:Eo; [|discriminate Ec] end.
  assert (Lq : forall y k, In y bs -> In k (qubits y) -> (k < Datatypes.S n)%nat).
  { eapply L; [|exact Eo]. intros t c J k p Jk. apply B. exists t, c, p. split; assumption. }
  destruct bs as [|y [|z bs]]; [discriminate Ec| |].
  - injection Ec as <-. apply (Lq y); [left; reflexivity|exact I].
  - injection Ec as <-. cbn [qubits] in I. change (In q (flat_map qubits (y :: z :: bs))) in I. apply in_flat_map in I.
    destruct I as (w & Iw & I). exact (Lq w q Iw I).
Qed.

(** A multiple of the identity is not converted: the identity is put on qubit -1. *)
Theorem C75_identity_refuted : forall O exact si, contract O exact -> set_order si -> forall x c, q_terms O x = [([], c)] ->
  from_openfermion O si x = IdentityOnMinusOne c.
Proof.
  intros O exact si K Hs x c E. destruct (from_cases O exact si K Hs (fun _ => 0%R) x) as [[E' _]|[(c' & E' & H)|(t' & c' & b & I & N & _)]].
  - congruence.
  - congruence.
  - rewrite E in I. destruct I as [I|[]]. congruence.
Qed.

(** The zero operator is not converted either: an exception. *)
Theorem C75_zero_refuted : forall O exact si, contract O exact -> set_order si -> forall x, q_terms O x = [] ->
  from_openfermion O si x = Raised.
Proof.
  intros O exact si K Hs x E. destruct (from_cases O exact si K Hs (fun _ => 0%R) x) as [[_ H]|[(c' & E' & H)|(t' & c' & b & I & N & _)]].
  - exact H.
  - congruence.
  - rewrite E in I. destruct I.
Qed.

(** There and back: the meaning is kept. *)
Theorem C75_round_trip : forall O exact rho0 si b x, contract O exact -> set_order si -> clean O exact rho0 b -> commuting rho0 b ->
  to_openfermion O rho0 b = Some x -> (exists t c, In (t, c) (q_terms O x) /\ t <> []) ->
  exists b', from_openfermion O si x = Converted b' /\ forall rho, den rho b' = den rho0 b.
Proof.
  intros O exact rho0 si b x K Hs C H E N. destruct (C75_from O exact si x K Hs N) as (b' & E' & D). exists b'. split; [exact E'|].
  intros rho. rewrite D. exact (C75_to_commuting O exact rho0 b x K C H E).
Qed.

Lemma chain_differs rho : den rho (BChain [BPrim PY 0; BPrim PX 0]) <> den rho (BChain [BPrim PX 0; BPrim PY 0]).
Proof.
  intros H. apply (f_equal (fun A : Op => A (fun x => if x 0%nat then RtoC 0 else RtoC 1) (fun _ => false))) in H.
  cbn [den fold_right] in H. rewrite !seqop_id_r in H. unfold seqop in H. rewrite !gate1_eq in H. unfold upd in H. cbn in H.
  revert H. apply C_neq. right. cbn. lra.
Qed.

(** The parts of a chain come out in the wrong order: chain(X(0), Y(0)) first applies X, its conversion first
    applies Y, which differs by a sign. *)
Theorem C75_chain_refuted : forall O exact rho0, contract O exact ->
  exists b x, pauli_block b = true /\ clean O exact rho0 b /\ to_openfermion O rho0 b = Some x /\ meaning O x <> den rho0 b.
Proof.
  intros O exact rho0 K. exists (BChain [BPrim PX 0; BPrim PY 0]). eexists. split; [reflexivity|]. split; [cbn; tauto|]. split; [reflexivity|].
  rewrite (C75_to O exact rho0 (BChain [BPrim PX 0; BPrim PY 0]) _ K); [apply chain_differs|cbn; tauto|reflexivity].
Qed.

(** The converted operator is the one for the values the parameters hold when it is made; it does not follow
    other values. *)
Theorem C75_values_refuted : forall O exact rho0, contract O exact ->
  exists b x rho, clean O exact rho0 b /\ commuting rho0 b /\ to_openfermion O rho0 b = Some x /\ meaning O x <> den rho b.
Proof.
  intros O exact rho0 K. exists (BScale (BPrim PZ 0) (EVar "a")). eexists. exists (fun s => (rho0 s + 1)%R).
  split; [exact I|]. split; [exact I|]. split; [reflexivity|].
  rewrite (C75_to O exact rho0 (BScale (BPrim PZ 0) (EVar "a")) _ K); [|exact I|reflexivity].
  intros H. apply (f_equal (fun A : Op => A (fun _ => RtoC 1) (fun _ => false))) in H. cbn [den backwards] in H. unfold scaleop in H. rewrite !gate1_eq in H. cbn in H.
  revert H. apply C_neq. left. cbn. lra.
Qed.

(** * An implementation that meets the contract *)
(** Terms are multiplied letter by letter, sums are merged term by term and a coefficient smaller than [tol] that
    results from a sum is removed, as openfermion does (tol = 1e-8). *)
Definition term_dec : forall t u : term, {t = u} + {t <> u}.
Proof. apply list_eq_dec. intros [q p] [q' p']. destruct (Nat.eq_dec q q') as [->|N]; [|right; congruence]. destruct p, p'; (left; reflexivity) || (right; congruence). Defined.
Definition letter_mul (a b : pauli) : C * option pauli :=
  match a, b with
  | PauliX, PauliX | PauliY, PauliY | PauliZ, PauliZ => (RtoC 1, None)
  | PauliX, PauliY => (Ci, Some PauliZ) | PauliY, PauliX => (- Ci, Some PauliZ)
  | PauliY, PauliZ => (Ci, Some PauliX) | PauliZ, PauliY => (- Ci, Some PauliX)
  | PauliZ, PauliX => (Ci, Some PauliY) | PauliX, PauliZ => (- Ci, Some PauliY)
  end.
Fixpoint times_letter (t : term) (g : nat * pauli) : C * term :=
  match t with
  | [] => (RtoC 1, [g])
  | (q, p) :: t' =>
      if Nat.eqb q (fst g) then let (c, r) := letter_mul p (snd g) in (c, match r with None => t' | Some l => (q, l) :: t' end)
      else let (c, u) := times_letter t' g in (c, (q, p) :: u)
  end.
Fixpoint times_term (t u : term) : C * term :=
  match u with
  | [] => (RtoC 1, t)
  | g :: u' => let (c, v) := times_term t u' in let (d, w) := times_letter v g in (c * d, w)
  end.
Fixpoint look (t : term) (l : list (term * C)) : C :=
  match l with [] => 0 | (u, c) :: l' => if term_dec u t then c else look t l' end.
Fixpoint erase (t : term) (l : list (term * C)) : list (term * C) :=
  match l with [] => [] | (u, c) :: l' => if term_dec u t then l' else (u, c) :: erase t l' end.
Fixpoint put (t : term) (c : C) (l : list (term * C)) : list (term * C) :=
  match l with [] => [(t, c)] | (u, d) :: l' => if term_dec u t then (u, c) :: l' else (u, d) :: put t c l' end.
Definition bump (tol : R) (l : list (term * C)) (tc : term * C) : list (term * C) :=
  let c := look (fst tc) l + snd tc in if Rlt_dec (Cmod c) tol then erase (fst tc) l else put (fst tc) c l.
Definition sum_terms (tol : R) (x y : list (term * C)) : list (term * C) := fold_left (bump tol) y x.
Definition mul_terms (x y : list (term * C)) : list (term * C) :=
  fold_left (bump 0) (flat_map (fun a => map (fun b => let (c, t) := times_term (fst a) (fst b) in (t, c * (snd a * snd b))) y) x) [].

Lemma terms_op_cons t c l psi x : terms_op ((t, c) :: l) psi x = c * term_op t psi x + terms_op l psi x.
Proof. reflexivity. Qed.
Lemma put_op t c l psi x : terms_op (put t c l) psi x = terms_op l psi x + (c - look t l) * term_op t psi x.
Proof.
  induction l as [|[u d] l IH].
  - cbn [put look]. rewrite terms_op_cons. change (terms_op [] psi x) with (RtoC 0). ring.
  - cbn [put look]. destruct (term_dec u t) as [->|N]; rewrite !terms_op_cons; [ring|]. rewrite IH. ring.
Qed.
Lemma erase_op t l psi x : terms_op (erase t l) psi x = terms_op l psi x - look t l * term_op t psi x.
Proof.
  induction l as [|[u d] l IH].
  - cbn [erase look]. ring.
  - cbn [erase look]. destruct (term_dec u t) as [->|N]; rewrite !terms_op_cons; [ring|]. rewrite IH. ring.
Qed.
Definition kept (tol : R) (l : list (term * C)) (tc : term * C) : Prop :=
  Cmod (look (fst tc) l + snd tc) < tol -> look (fst tc) l + snd tc = 0.
Lemma bump_op tol l t d : kept tol l (t, d) -> terms_op (bump tol l (t, d)) = addop (terms_op l) (scaleop d (term_op t)).
Proof.
  intros Kp. unfold kept in Kp. cbn [fst snd] in Kp. apply functional_extensionality. intros psi. apply functional_extensionality. intros x. unfold bump, addop, scaleop. cbn [fst snd].
  destruct (Rlt_dec _ _) as [L|L].
  - rewrite erase_op. specialize (Kp L). replace d with (- look t l + (look t l + d)) by ring. rewrite Kp. ring.
  - rewrite put_op. ring.
Qed.
Fixpoint all_kept (tol : R) (x y : list (term * C)) : Prop :=
  match y with [] => True | tc :: y' => kept tol x tc /\ all_kept tol (bump tol x tc) y' end.
Lemma sum_op tol y : forall x, all_kept tol x y -> terms_op (sum_terms tol x y) = addop (terms_op x) (terms_op y).
Proof.
  induction y as [|[t d] y IH]; intros x A; cbn [sum_terms fold_left]; [symmetry; apply addop_zero_r|]. destruct A as [A1 A2].
  unfold sum_terms in IH. rewrite IH by exact A2. rewrite bump_op by exact A1. apply addop_assoc.
Qed.
Lemma kept0 l tc : kept 0 l tc.
Proof. intros H. pose proof (Cmod_ge_0 (look (fst tc) l + snd tc)). lra. Qed.
Lemma all_kept0 y : forall x, all_kept 0 x y.
Proof. induction y as [|tc y IH]; intros x; [exact I|]. split; [apply kept0|apply IH]. Qed.

Lemma term_linear t : linear (term_op t).
Proof. induction t as [|g t IH]; cbn [term_op fold_right]; [apply linear_id|]. apply linear_seq; [apply linear_gate|exact IH]. Qed.
Lemma terms_linear l : linear (terms_op l).
Proof. induction l as [|tc l IH]; cbn [terms_op fold_right]; [apply linear_zero|]. apply linear_add; [apply linear_scale, term_linear|exact IH]. Qed.

Lemma letter_op_eq g psi x : letter_op g psi x = prim_mat (pauli_prim (snd g)) (x (fst g)) false * psi (upd x (fst g) false) + prim_mat (pauli_prim (snd g)) (x (fst g)) true * psi (upd x (fst g) true).
Proof. apply gate1_eq. Qed.
Lemma letter_mul_op q a b : let (c, r) := letter_mul a b in
  seqop (letter_op (q, b)) (letter_op (q, a)) = scaleop c (match r with None => idop | Some l => letter_op (q, l) end).
Proof.
  assert (G : forall p, exists A B, forall psi x, letter_op (q, p) psi x = prim_mat (pauli_prim p) (x q) false * psi (A x) + prim_mat (pauli_prim p) (x q) true * psi (B x) /\ A = (fun x => upd x q false) /\ B = (fun x => upd x q true)).
  { intros p. exists (fun x => upd x q false), (fun x => upd x q true). intros psi x. split; [apply (letter_op_eq (q, p))|split; reflexivity]. }
  clear G.
  assert (E0 : forall x, x q = false -> upd x q false = x) by (intros x E; rewrite <- E; apply upd_id).
  assert (E1 : forall x, x q = true -> upd x q true = x) by (intros x E; rewrite <- E; apply upd_id).
  destruct a, b; cbn [letter_mul]; apply functional_extensionality; intros psi; apply functional_extensionality; intros x;
    unfold seqop, scaleop, idop; rewrite !letter_op_eq; cbn [fst snd]; rewrite ?letter_op_eq; cbn [fst snd];
    rewrite ?upd_same, ?upd_upd; destruct (x q) eqn:X; cbn [pauli_prim prim_mat mat2];
    rewrite ?(E0 x X), ?(E1 x X); apply Ceq; cbn; ring.
Qed.
Lemma times_letter_op t g : NoDup (map fst t) -> let (c, u) := times_letter t g in
  seqop (letter_op g) (term_op t) = scaleop c (term_op u) /\ NoDup (map fst u) /\ (forall q, In q (map fst u) -> q = fst g \/ In q (map fst t)).
Proof.
  destruct g as [k b]. induction t as [|[q p] t IH]; intros N.
  - cbn. rewrite scaleop_one, seqop_id_r. repeat split; [constructor; [intros []|constructor]|]. intros q [E|[]]. left. now symmetry.
  - cbn [times_letter fst snd]. inversion N as [|? ? N1 N2]; subst. destruct (Nat.eqb_spec q k) as [->|D].
    + pose proof (letter_mul_op k p b) as M. destruct (letter_mul p b) as [c r]. cbn [term_op fold_right]. fold (term_op t). rewrite <- seqop_assoc, M.
      rewrite seqop_scale_l by apply term_linear. destruct r as [l|].
      * split; [reflexivity|]. split; [exact N|]. intros q I. right. exact I.
      * split; [reflexivity|]. split; [exact N2|]. intros q I. right. right. exact I.
    + specialize (IH N2). destruct (times_letter t (k, b)) as [c u]. destruct IH as (E & U & S). split; [|split].
      * cbn [term_op fold_right]. fold (term_op t). fold (term_op u). rewrite <- seqop_scale_r, <- E, <- !seqop_assoc. f_equal.
        apply gate_disjoint_comm. cbn [In fst]. intros j [E1|[]] [E2|[]]. congruence.
      * cbn [map fst]. constructor; [|exact U]. intros I. destruct (S q I) as [E'|I']; [contradiction|]. apply N1, I'.
      * intros j [<-|I]; [right; left; reflexivity|]. destruct (S j I) as [E'|I']; [left; exact E'|right; right; exact I'].
Qed.
Lemma times_term_op t u : NoDup (map fst t) -> let (c, v) := times_term t u in
  seqop (term_op u) (term_op t) = scaleop c (term_op v) /\ NoDup (map fst v).
Proof.
  intros N. induction u as [|g u IH]; cbn [times_term]; [rewrite scaleop_one; split; [apply seqop_id_l|exact N]|].
  destruct (times_term t u) as [c v]. destruct IH as [E V]. pose proof (times_letter_op v g V) as T. destruct (times_letter v g) as [d w]. destruct T as (T & W & _).
  split; [|exact W]. cbn [term_op fold_right]. fold (term_op u). rewrite seqop_assoc, E, seqop_scale_r, T. apply scaleop_scale.
Qed.
Definition good (l : list (term * C)) : Prop := NoDup (map fst l) /\ forall t c, In (t, c) l -> NoDup (map fst t).
Lemma mul_op x y : good x -> terms_op (mul_terms x y) = seqop (terms_op y) (terms_op x).
Proof.
  intros [_ G]. unfold mul_terms. change (fold_left (bump 0) ?l []) with (sum_terms 0 [] l). rewrite sum_op by apply all_kept0. change (terms_op []) with zeroop. rewrite addop_zero_l.
  assert (A : forall l m, terms_op (l ++ m) = addop (terms_op l) (terms_op m)).
  { intros l m. induction l as [|tc l IH]; cbn [app terms_op fold_right]; [symmetry; apply addop_zero_l|]. fold (terms_op l). fold (terms_op (l ++ m)). rewrite IH. symmetry. apply addop_assoc. }
  induction x as [|[t c] x IH]; [cbn; reflexivity|]. cbn [flat_map]. rewrite A, IH by (intros t' c' I; apply (G t' c'); right; exact I). clear IH.
  cbn [terms_op fold_right fst snd]. fold (terms_op x). rewrite seqop_add_r. f_equal.
  assert (N : NoDup (map fst t)) by (apply (G t c); left; reflexivity). clear G. induction y as [|[u d] y IH].
  - cbn. symmetry. apply seqop_zero_l, linear_scale, term_linear.
  - cbn [map]. pose proof (times_term_op t u N) as T. cbn [fst snd]. destruct (times_term t u) as [k v]. destruct T as [T _].
    cbn [terms_op fold_right fst snd]. fold (terms_op y). rewrite seqop_add_l by apply linear_scale, term_linear. unfold terms_op in IH at 1. rewrite IH. f_equal.
    rewrite seqop_scale_l by apply linear_scale, term_linear. rewrite seqop_scale_r, T, !scaleop_scale. f_equal. ring.
Qed.

Lemma put_keys t c l u : In u (map fst (put t c l)) <-> In u (map fst l) \/ u = t.
Proof.
  induction l as [|[v d] l IH]; cbn [put map fst In]; [split; [intros [E|[]]; right; now symmetry|intros [[]|E]; left; now symmetry]|].
  destruct (term_dec v t) as [->|N]; cbn [map fst In]; [|rewrite IH]; intuition (subst; auto).
Qed.
Lemma put_good t c l : good l -> NoDup (map fst t) -> good (put t c l).
Proof.
  intros [G1 G2] T. split.
  - clear G2. induction l as [|[v d] l IH]; cbn [put]; [constructor; [intros []|constructor]|]. cbn [map fst] in G1. inversion G1 as [|? ? H1 H2]; subst.
    destruct (term_dec v t) as [->|N]; cbn [map fst]; constructor; auto. rewrite put_keys. intros [I|E]; [apply H1, I|contradiction].
  - intros u k I. assert (I' : In u (map fst (put t c l))) by (apply (in_map fst) in I; exact I). apply put_keys in I'. destruct I' as [I'| ->]; [|exact T].
    apply in_map_iff in I'. destruct I' as ([u' k'] & E & I'). cbn in E. subst u'. apply (G2 u k' I').
Qed.
Lemma erase_incl t l tc : In tc (erase t l) -> In tc l.
Proof. induction l as [|[v d] l IH]; cbn [erase]; [auto|]. destruct (term_dec v t); cbn [In]; [auto|]. intuition. Qed.
Lemma erase_good t l : good l -> good (erase t l).
Proof.
  intros [G1 G2]. split; [|intros u k I; apply (G2 u k), (erase_incl _ _ _ I)]. clear G2. induction l as [|[v d] l IH]; cbn [erase]; [exact G1|]. cbn [map fst] in G1. inversion G1 as [|? ? H1 H2]; subst.
  destruct (term_dec v t); [exact H2|]. cbn [map fst]. constructor; [|apply IH, H2]. intros I. apply in_map_iff in I. destruct I as ([v' d'] & E & I). cbn in E. subst v'.
  apply H1. apply (in_map fst) in I as I'. apply erase_incl in I. apply (in_map fst) in I. exact I.
Qed.
Lemma bump_good tol l tc : good l -> NoDup (map fst (fst tc)) -> good (bump tol l tc).
Proof. intros G T. unfold bump. destruct (Rlt_dec _ _); [apply erase_good, G|apply put_good; assumption]. Qed.
Lemma fold_good tol y : forall x, good x -> (forall t c, In (t, c) y -> NoDup (map fst t)) -> good (fold_left (bump tol) y x).
Proof.
  induction y as [|[t c] y IH]; intros x G H; [exact G|]. cbn [fold_left]. apply IH; [apply bump_good; [exact G|apply (H t c); left; reflexivity]|].
  intros t' c' I. apply (H t' c'). right. exact I.
Qed.
Lemma nil_good : good [].
Proof. split; [constructor|intros t c []]. Qed.
Lemma mul_good x y : good x -> good (mul_terms x y).
Proof.
  intros [_ G]. apply fold_good; [apply nil_good|]. intros t c I. apply in_flat_map in I. destruct I as ([a k] & Ia & I). apply in_map_iff in I. destruct I as ([b d] & E & _).
  pose proof (times_term_op a b (G a k Ia)) as T. cbn [fst snd] in E. destruct (times_term a b) as [e v]. injection E as <- _. apply T.
Qed.
Lemma scale_good (k : C) l : good l -> good (map (fun tc => (fst tc, snd tc * k)) l).
Proof.
  intros [G1 G2]. split; [rewrite map_map; exact G1|]. intros t c I. apply in_map_iff in I. destruct I as ([u d] & E & I). injection E as <- _. apply (G2 u d I).
Qed.
Lemma one_good t c : NoDup (map fst t) -> good [(t, c)].
Proof. intros T. split; [constructor; [intros []|constructor]|]. intros u k [E|[]]. congruence. Qed.
Lemma single (q : nat) (p : pauli) : NoDup (map fst [(q, p)]).
Proof. constructor; [intros []|constructor]. Qed.

Definition term_width (t : term) : nat := list_max (map (fun g => S (fst g)) t).
Definition reference (tol : R) : qubit_operators := {|
  qop := { l | good l };
  q_pauli := fun p q => exist _ [([(q, p)], RtoC 1)] (one_good _ _ (single q p));
  q_unit := exist _ [([], RtoC 1)] (one_good [] _ (NoDup_nil _));
  q_mul := fun x y => exist _ (mul_terms (proj1_sig x) (proj1_sig y)) (mul_good _ _ (proj2_sig x));
  q_add := fun x y => exist _ (sum_terms tol (proj1_sig x) (proj1_sig y)) (fold_good tol _ _ (proj2_sig x) (proj2 (proj2_sig y)));
  q_scale := fun x k => exist _ _ (scale_good k _ (proj2_sig x));
  q_terms := @proj1_sig _ _;
  q_count := fun x => list_max (map (fun tc => term_width (fst tc)) (proj1_sig x))
|}.
Definition reference_exact (tol : R) (x y : qop (reference tol)) : Prop := all_kept tol (proj1_sig x) (proj1_sig y).
Lemma list_max_in (l : list nat) n : In n l -> (n <= list_max l)%nat.
Proof. induction l as [|m l IH]; [intros []|]. change (list_max (m :: l)) with (Nat.max m (list_max l)). intros [->|I]; [lia|]. specialize (IH I). lia. Qed.
Lemma reference_contract tol : contract (reference tol) (reference_exact tol).
Proof.
  constructor; try reflexivity.
  - intros [x Gx] [y Gy]. apply (mul_op x y Gx).
  - intros [x Gx] [y Gy] E. apply (sum_op tol y x E).
  - intros [x Gx] k. unfold meaning. cbn [q_terms q_scale reference proj1_sig]. clear Gx. induction x as [|[t c] x IH].
    + cbn. symmetry. apply scaleop_zero.
    + cbn [map terms_op fold_right fst snd]. fold (terms_op x). rewrite scaleop_add, scaleop_scale, <- IH. f_equal. f_equal. ring.
  - intros [x [G1 G2]] t c I. apply (G2 t c I).
  - intros [x [G1 G2]]. exact G1.
  - intros [x G] q (t & c & p & I & J). cbn [q_count q_terms reference proj1_sig] in *.
    assert (A : (S q <= term_width t)%nat) by (unfold term_width; apply list_max_in; apply in_map_iff; exists (q, p); auto).
    assert (B : (term_width t <= list_max (map (fun tc => term_width (fst tc)) x))%nat) by (apply list_max_in; apply in_map_iff; exists (t, c); auto). lia.
  - intros [x G] H. cbn [q_count q_terms reference proj1_sig] in *. clear G. induction x as [|[t c] x IH]; [reflexivity|]. cbn [map list_max fold_right fst].
    rewrite (H t c) by (left; reflexivity). cbn. apply IH. intros t' c' I. apply (H t' c'). right. exact I.
Qed.

(** A coefficient below openfermion's tolerance disappears from a sum: Z(1) + c X(0) is converted to Z(1). *)
Theorem C75_small_refuted : forall rho0 tol, 0 < tol ->
  exists b x, commuting rho0 b /\ to_openfermion (reference tol) rho0 b = Some x /\ meaning (reference tol) x <> den rho0 b.
Proof.
  intros rho0 tol T. exists (BAdd [BPrim PZ 1; BScale (BPrim PX 0) (ECst (RtoC (tol / 2)))]). eexists. split; [cbn; tauto|]. split; [reflexivity|].
  unfold meaning. cbn [reduce fold_left q_add q_pauli q_scale q_terms reference proj1_sig map fst snd ev]. unfold sum_terms. cbn [fold_left]. unfold bump. cbn [fst snd look].
  destruct (term_dec [(1%nat, PauliZ)] [(0%nat, PauliX)]) as [E|_]; [discriminate E|]. destruct (Rlt_dec _ _) as [L|L].
  2: { exfalso. apply L. replace (0 + 1 * RtoC (tol / 2)) with (RtoC (tol / 2)) by ring. rewrite Cmod_R, Rabs_right; lra. }
  cbn [erase]. destruct (term_dec [(1%nat, PauliZ)] [(0%nat, PauliX)]) as [E|_]; [discriminate E|]. intros H.
  apply (f_equal (fun A : Op => A (fun x => if x 0%nat then RtoC 1 else RtoC 0) (fun _ => false))) in H.
  cbn [terms_op fold_right fst snd term_op den] in H. unfold addop, zeroop, scaleop, idop, seqop in H. rewrite !gate1_eq in H. unfold upd in H. cbn in H.
  apply (f_equal fst) in H. cbn in H. lra.
Qed.

(** The theorems apply: 2 X(0) Y(1) + Z(0), with any tolerance up to 1, goes there and back. *)
Definition sample : block := BAdd [BScale (BKron [BPrim PX 0; BPrim PY 1]) (ECst (RtoC 2)); BPrim PZ 0].
Example sample_there_and_back : forall rho0 si tol, set_order si -> tol <= 1 -> exists x b',
  to_openfermion (reference tol) rho0 sample = Some x /\ meaning (reference tol) x = den rho0 sample /\
  from_openfermion (reference tol) si x = Converted b' /\ forall rho, den rho b' = den rho0 sample.
Proof.
  intros rho0 si tol Hs T.
  assert (C : clean (reference tol) (reference_exact tol) rho0 sample).
  { cbn. repeat split. unfold kept. cbn [fst snd]. unfold mul_terms. cbn [flat_map map fst snd app times_term times_letter Nat.eqb fold_left]. unfold bump. cbn [fst snd look].
    destruct (Rlt_dec _ _); cbn [put erase map fst snd look].
    - intros L. exfalso. replace (0 + RtoC 1) with (RtoC 1) in L by ring. rewrite Cmod_R, Rabs_right in L; lra.
    - destruct (term_dec _ _) as [E|_]; [discriminate E|]. intros L. exfalso. replace (0 + RtoC 1) with (RtoC 1) in L by ring. rewrite Cmod_R, Rabs_right in L; lra. }
  assert (Q : commuting rho0 sample).
  { cbn. repeat split; repeat constructor. intros q [<-|[]] [E|[]]. discriminate E. }
  destruct (proj2 (C75_domain (reference tol) rho0 sample) eq_refl) as [x E].
  assert (M := C75_to_commuting _ _ rho0 sample x (reference_contract tol) C Q E).
  assert (N : exists t c, In (t, c) (q_terms (reference tol) x) /\ t <> []).
  { destruct (from_cases (reference tol) (reference_exact tol) si (reference_contract tol) Hs rho0 x) as [[Z _]|[(c & Z & _)|(t & c & b & I & H & _)]].
    - exfalso. unfold meaning in M. rewrite Z in M. apply (f_equal (fun A : Op => A (fun x => if x 0%nat then RtoC 0 else RtoC 1) (fun _ => false))) in M.
      cbn [terms_op fold_right den sample] in M. unfold addop, zeroop, scaleop, idop, seqop in M. rewrite !gate1_eq in M. unfold upd in M. cbn in M. apply (f_equal fst) in M. cbn in M. lra.
    - exfalso. unfold meaning in M. rewrite Z in M.
      assert (M1 := f_equal (fun A : Op => A (fun x => if x 0%nat then RtoC 0 else RtoC 1) (fun _ => false)) M).
      assert (M2 := f_equal (fun A : Op => A (fun x => if x 0%nat then RtoC 1 else RtoC 0) (fun _ => true)) M). clear M.
      cbn [terms_op fold_right fst snd den sample term_op] in M1, M2. unfold addop, zeroop, scaleop, idop, seqop in M1, M2. rewrite !gate1_eq in M1, M2. unfold upd in M1, M2. cbn in M1, M2.
      apply (f_equal fst) in M1, M2. cbn in M1, M2. lra.
    - eauto. }
  destruct (C75_round_trip _ _ rho0 si sample x (reference_contract tol) Hs C Q E N) as (b' & E' & D). exists x, b'. auto.
Qed.

Print Assumptions C75_to.
Print Assumptions C75_to_commuting.
Print Assumptions C75_domain.
Print Assumptions C75_from.
Print Assumptions C75_identity_refuted.
Print Assumptions C75_zero_refuted.
Print Assumptions C75_round_trip.
Print Assumptions C75_chain_refuted.
Print Assumptions C75_values_refuted.
Print Assumptions C75_small_refuted.
Print Assumptions sample_there_and_back.
