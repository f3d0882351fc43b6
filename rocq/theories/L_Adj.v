(** Adjoints of operators and of blocks. *)
From Coq Require Import String Reals List Arith Bool Lia FunctionalExtensionality.
From Coquelicot Require Import Coquelicot.
From Coq Require Import List.
From Verif Require Import S_Ops L_Ops M_Block S_Den L_Den L_Loc M_BlockOps.
Import ListNotations.
Open Scope R_scope.
Open Scope C_scope.

(** [B] is the conjugate transpose of [A] on the qubits [fs]. *)
Definition adj_on (fs : list nat) (A B : Op) : Prop :=
  forall r c, length r = length fs -> length c = length fs -> matof fs B r c = Cconj (matof fs A c r).

Definition inl (fs : list nat) : nat -> Prop := fun q => In q fs.

Section Fs.
  Variable fs : list nat.
  Hypothesis Hn : NoDup fs.

  Lemma adj_seq A A' B B' : loc (inl fs) A -> loc (inl fs) A' -> loc (inl fs) B -> loc (inl fs) B' ->
    adj_on fs A A' -> adj_on fs B B' -> adj_on fs (seqop A B) (seqop B' A').
  Proof.
    intros LA LA' LB LB' HA HB r c Hr Hc.
    rewrite (matof_seq (inl fs)), (matof_seq (inl fs)) by (assumption || (intros; assumption)).
    rewrite csum_conj. apply csum_ext. intros z Hz. apply bits_length in Hz.
    rewrite HA, HB, Cconj_mult by assumption. ring.
  Qed.

  Lemma adj_add A A' B B' : adj_on fs A A' -> adj_on fs B B' -> adj_on fs (addop A B) (addop A' B').
  Proof. intros HA HB r c Hr Hc. rewrite !matof_add, HA, HB, Cconj_plus by assumption. reflexivity. Qed.

  Lemma adj_scale k A A' : adj_on fs A A' -> adj_on fs (scaleop k A) (scaleop (Cconj k) A').
  Proof. intros HA r c Hr Hc. rewrite !matof_scale, HA, Cconj_mult by assumption. reflexivity. Qed.

  Lemma bid_sym r c : bid r c = bid c r.
  Proof.
    unfold bid. destruct (eqbits r c) eqn:E, (eqbits c r) eqn:E'; try reflexivity.
    - apply eqbits_true in E. subst. rewrite eqbits_refl in E'. discriminate.
    - apply eqbits_true in E'. subst. rewrite eqbits_refl in E. discriminate.
  Qed.
  Lemma Cconj_bid r c : Cconj (bid r c) = bid r c.
  Proof. unfold bid. destruct (eqbits r c); apply Cconj_RtoC. Qed.

  Lemma adj_id : adj_on fs idop idop.
  Proof. intros r c Hr Hc. rewrite !matof_id, bid_sym, Cconj_bid by assumption. reflexivity. Qed.
  Lemma adj_zero : adj_on fs zeroop zeroop.
  Proof. intros r c Hr Hc. rewrite !matof_zero. symmetry; apply Cconj_RtoC. Qed.

  Lemma adj_gate qs G G' : NoDup qs -> (forall q, In q qs -> In q fs) ->
    (forall r c, length r = length qs -> length c = length qs -> G' r c = Cconj (G c r)) ->
    adj_on fs (gate qs G) (gate qs G').
  Proof.
    intros Nq Hq H r c Hr Hc. unfold matof, gate. rewrite csum_conj.
    set (xr := upds zeros fs r). set (xc := upds zeros fs c).
    (* both sides have one surviving term *)
    assert (HL : forall x d (F : bmat), length d = length fs ->
      csum (fun y => F (map x qs) y * ket fs d (upds x qs y)) (bits (length qs)) =
      F (map x qs) (map (upds zeros fs d) qs) * ket fs d (upds x qs (map (upds zeros fs d) qs))).
    { intros x d F Hd. rewrite (csum_single _ _ (map (upds zeros fs d) qs)).
      - reflexivity.
      - apply bits_nodup.
      - apply in_bits_iff, map_length.
      - intros y Hy Hne. apply bits_length in Hy. unfold ket.
        destruct (eqbits (map (upds x qs y) fs) d) eqn:E; [|ring].
        apply eqbits_true in E. exfalso. apply Hne.
        rewrite <- E.
        transitivity (map (upds x qs y) qs); [symmetry; apply upds_map; auto|].
        apply map_ext_in. intros q Hin. symmetry. apply upds_map_in, Hq, Hin. }
    rewrite HL by assumption.
    transitivity (Cconj (csum (fun y => G (map xc qs) y * ket fs r (upds xc qs y)) (bits (length qs)))).
    2:{ rewrite csum_conj. reflexivity. }
    rewrite HL by assumption.
    fold xr. fold xc. rewrite H by apply map_length. rewrite Cconj_mult. f_equal.
    unfold ket.
    assert (E : eqbits (map (upds xr qs (map xc qs)) fs) c = eqbits (map (upds xc qs (map xr qs)) fs) r).
    { assert (K : forall u w du dw, length du = length fs -> length dw = length fs ->
         u = upds zeros fs du -> w = upds zeros fs dw ->
         eqbits (map (upds u qs (map w qs)) fs) dw = true -> eqbits (map (upds w qs (map u qs)) fs) du = true).
      { intros u w du dw ldu ldw -> -> E. apply eqbits_true in E. apply eqbits_true.
        assert (Ha : forall q, In q fs -> ~ In q qs -> upds zeros fs du q = upds zeros fs dw q).
        { intros q Hin Hni.
          assert (Q : upds zeros fs dw = upds zeros fs (map (upds (upds zeros fs du) qs (map (upds zeros fs dw) qs)) fs))
            by (rewrite E; reflexivity).
          rewrite Q. rewrite upds_map_in by assumption. rewrite (upds_notin (upds zeros fs du)) by assumption. reflexivity. }
        transitivity (map (upds zeros fs du) fs); [|apply upds_map; assumption].
        apply map_ext_in. intros q Hin.
        destruct (in_dec Nat.eq_dec q qs) as [Hi|Hi].
        - rewrite upds_map_in by assumption. reflexivity.
        - rewrite upds_notin by assumption. symmetry. auto. }
      destruct (eqbits (map (upds xr qs (map xc qs)) fs) c) eqn:E1,
               (eqbits (map (upds xc qs (map xr qs)) fs) r) eqn:E2; try reflexivity.
      - rewrite (K xr xc r c) in E2; auto.
      - rewrite (K xc xr c r) in E1; auto. }
    rewrite E. destruct (eqbits _ r); symmetry; apply Cconj_RtoC.
  Qed.

  (** Off-diagonal control blocks vanish. *)
  Lemma matof_ctrl_zero (T : nat -> Prop) A cs r c : loc T A -> (forall q, In q cs -> T q -> False) ->
    (forall q, In q cs -> In q fs) -> length c = length fs ->
    forallb (upds zeros fs r) cs <> forallb (upds zeros fs c) cs -> matof fs A r c = 0.
  Proof.
    intros LA Hd Hc Hl Hne. unfold matof.
    assert (Hf : forall x, map x fs = c -> forallb x cs = forallb (upds zeros fs c) cs).
    { intros x <-. clear - Hc. induction cs as [|a cs IH]; simpl; [reflexivity|].
      rewrite upds_map_in by (apply Hc; left; reflexivity).
      rewrite IH; [reflexivity|]. intros; apply Hc; right; assumption. }
    destruct (loc_linear _ _ LA) as [_ Hscal].
    assert (Z : A (fun x => 0) = fun x => 0).
    { transitivity (A (fun x => 0 * zeroop (fun _ => 0) x)).
      - f_equal. extensionality x. unfold zeroop. ring.
      - rewrite Hscal. extensionality x. ring. }
    destruct (forallb (upds zeros fs c) cs) eqn:Ec.
    - (* ket c lives where all controls are 1 *)
      assert (K : ket fs c = fun x => if forallb x cs then ket fs c x else 0).
      { extensionality x. unfold ket. destruct (eqbits (map x fs) c) eqn:E.
        - apply eqbits_true in E. rewrite (Hf x E). reflexivity.
        - destruct (forallb x cs); reflexivity. }
      rewrite K, (loc_mix T A cs (ket fs c) (fun _ => 0) LA Hd), Z.
      destruct (forallb (upds zeros fs r) cs); [congruence|reflexivity].
    - assert (K : ket fs c = fun x => if forallb x cs then 0 else ket fs c x).
      { extensionality x. unfold ket. destruct (eqbits (map x fs) c) eqn:E.
        - apply eqbits_true in E. rewrite (Hf x E). reflexivity.
        - destruct (forallb x cs); reflexivity. }
      rewrite K, (loc_mix T A cs (fun _ => 0) (ket fs c) LA Hd), Z.
      destruct (forallb (upds zeros fs r) cs); [reflexivity|congruence].
  Qed.

  Lemma adj_ctrl (T : nat -> Prop) A A' cs : loc T A -> (forall q, In q cs -> T q -> False) ->
    (forall q, In q cs -> In q fs) -> adj_on fs A A' -> adj_on fs (ctrlop cs A) (ctrlop cs A').
  Proof.
    intros LA Hd Hc HA r c Hr Hcl.
    rewrite !matof_ctrl by assumption.
    destruct (forallb (upds zeros fs r) cs) eqn:Er, (forallb (upds zeros fs c) cs) eqn:Ec.
    - apply HA; assumption.
    - rewrite HA by assumption.
      rewrite (matof_ctrl_zero T A cs c r LA) by (assumption || congruence).
      unfold bid. destruct (eqbits c r) eqn:E; [|reflexivity].
      apply eqbits_true in E. subst; congruence.
    - rewrite (matof_ctrl_zero T A cs c r LA) by (assumption || congruence).
      unfold bid. destruct (eqbits r c) eqn:E; [|symmetry; apply Cconj_RtoC].
      apply eqbits_true in E. subst; congruence.
    - rewrite bid_sym, Cconj_bid. reflexivity.
  Qed.

  Lemma adj_swap a b : In a fs -> In b fs -> adj_on fs (swapop a b) (swapop a b).
  Proof.
    intros Ha Hb. destruct (Nat.eq_dec a b) as [->|Hab].
    - rewrite swapop_same. apply adj_id.
    - rewrite swapop_gate by assumption. apply adj_gate.
      + repeat constructor; simpl; tauto || (intros [|[]]; congruence).
      + simpl; intros q [<-|[<-|[]]]; assumption.
      + intros [|r1 [|r2 [|]]] [|c1 [|c2 [|]]]; simpl; intros; try discriminate.
        destruct r1, r2, c1, c2; simpl; rewrite ?Cconj_RtoC; reflexivity.
  Qed.
End Fs.

(** * Matrix powers and exponentials *)
Lemma bpow_ext n A B : (forall r c, length r = n -> length c = n -> A r c = B r c) ->
  forall k r c, length r = n -> length c = n -> bpow n A k r c = bpow n B k r c.
Proof.
  intros H. induction k as [|k IH]; intros r c Hr Hc; simpl; [reflexivity|].
  apply csum_ext. intros z Hz. apply bits_length in Hz. rewrite H, IH by assumption. reflexivity.
Qed.

Lemma bpow_comm n A k : forall r c, length r = n -> length c = n ->
  csum (fun z => A r z * bpow n A k z c) (bits n) = csum (fun z => bpow n A k r z * A z c) (bits n).
Proof.
  induction k as [|k IH]; intros r c Hr Hc; simpl.
  - transitivity (A r c).
    + rewrite (csum_single _ _ c).
      * change (eqbits c c) with (eqbits c c). rewrite eqbits_refl. ring.
      * apply bits_nodup.
      * apply in_bits_iff; exact Hc.
      * intros z Hz Hne. destruct (eqbits z c) eqn:E; [apply eqbits_true in E; congruence|ring].
    + rewrite (csum_single _ _ r).
      * rewrite eqbits_refl. ring.
      * apply bits_nodup.
      * apply in_bits_iff; exact Hr.
      * intros z Hz Hne. destruct (eqbits r z) eqn:E; [apply eqbits_true in E; congruence|ring].
  - transitivity (csum (fun z => csum (fun w => A r z * bpow n A k z w * A w c) (bits n)) (bits n)).
    + apply csum_ext. intros z Hz. apply bits_length in Hz. rewrite IH by assumption.
      rewrite <- csum_scal. apply csum_ext. intros; ring.
    + rewrite csum_swap. apply csum_ext. intros w Hw. rewrite <- csum_scal_r. reflexivity.
Qed.

Lemma bpow_adj n A k : forall r c, length r = n -> length c = n ->
  bpow n (badj A) k r c = Cconj (bpow n A k c r).
Proof.
  induction k as [|k IH]; intros r c Hr Hc; simpl.
  - change (bid r c = Cconj (bid c r)). rewrite bid_sym, Cconj_bid. reflexivity.
  - rewrite (bpow_comm n A k) by assumption. rewrite csum_conj. apply csum_ext.
    intros z Hz. apply bits_length in Hz. rewrite IH by assumption. unfold badj.
    rewrite Cconj_mult. ring.
Qed.

Lemma bexp_ext n A B : (forall r c, length r = n -> length c = n -> A r c = B r c) ->
  forall r c, length r = n -> length c = n -> bexp n A r c = bexp n B r c.
Proof.
  intros H r c Hr Hc. unfold bexp. f_equal; apply Series_ext; intro k;
    rewrite (bpow_ext n A B H) by assumption; reflexivity.
Qed.

Lemma bexp_adj n A : forall r c, length r = n -> length c = n ->
  bexp n (badj A) r c = Cconj (bexp n A c r).
Proof.
  intros r c Hr Hc. unfold bexp, Cconj. simpl. f_equal.
  - apply Series_ext. intro k. rewrite bpow_adj by assumption. reflexivity.
  - rewrite <- Series_opp. apply Series_ext. intro k. rewrite bpow_adj by assumption.
    unfold Cconj. simpl. unfold Rdiv. ring.
Qed.
