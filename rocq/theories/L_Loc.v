(** Local operators are gates: every operator generated by gates on qubits of [fs] is the gate of its own
    matrix on [fs], so operators can be compared entry by entry. *)
From Coq Require Import String Reals List Arith Bool Lia FunctionalExtensionality.
From Coquelicot Require Import Coquelicot.
From Coq Require Import List.
From Verif Require Import S_Ops L_Ops M_Block S_Den L_Den.
Import ListNotations.
Open Scope R_scope.
Open Scope C_scope.

Lemma upds_map_in x fs (f : asg) q : In q fs -> upds x fs (map f fs) q = f q.
Proof.
  induction fs as [|a fs IH]; simpl; [tauto|]. intros H.
  unfold upd. destruct (Nat.eqb_spec q a) as [->|Hn]; [reflexivity|].
  destruct H as [->|H]; [congruence|auto].
Qed.

Lemma upds_map_fun x fs (f : asg) :
  upds x fs (map f fs) = fun q => if in_dec Nat.eq_dec q fs then f q else x q.
Proof.
  extensionality q. destruct (in_dec Nat.eq_dec q fs) as [H|H].
  - apply upds_map_in; exact H.
  - apply upds_notin; exact H.
Qed.

Lemma map_ext_in' {A B} (f g : A -> B) l : (forall a, In a l -> f a = g a) -> map f l = map g l.
Proof. apply map_ext_in. Qed.

Lemma csum_if_single {A} (eqd : forall a b : A, {a = b} + {a <> b}) (f : A -> C) l a :
  NoDup l -> In a l -> csum (fun c => (if eqd a c then RtoC 1 else RtoC 0) * f c) l = f a.
Proof.
  intros Hn Hi.
  rewrite (csum_single (fun c => (if eqd a c then RtoC 1 else RtoC 0) * f c) l a Hn Hi).
  - destruct (eqd a a); [ring|congruence].
  - intros b Hb Hne. destruct (eqd a b); [congruence|ring].
Qed.

Lemma eqbits_dec a b : (if eqbits a b then RtoC 1 else RtoC 0) = (if list_eq_dec Bool.bool_dec a b then RtoC 1 else RtoC 0).
Proof. unfold eqbits. destruct (list_eq_dec Bool.bool_dec a b); reflexivity. Qed.

Lemma gate_expand fs qs G : NoDup fs -> (forall q, In q qs -> In q fs) ->
  gate qs G = gate fs (matof fs (gate qs G)).
Proof.
  intros Hn Hs. extensionality psi. extensionality x.
  unfold gate at 2. unfold matof, gate.
  transitivity (csum (fun y => csum (fun c => csum (fun z => 
     (if list_eq_dec Bool.bool_dec (map (upds x qs z) fs) c then 1 else 0) * (G (map x qs) z * psi (upds x fs c))) (bits (length qs))) (bits (length fs))) [tt]).
  - simpl. rewrite Cplus_0_r. rewrite csum_swap. apply csum_ext. intros z Hz.
    rewrite (csum_if_single (list_eq_dec Bool.bool_dec) (fun c => G (map x qs) z * psi (upds x fs c))).
    + f_equal. f_equal. rewrite upds_map_fun. extensionality q.
      destruct (in_dec Nat.eq_dec q fs) as [H|H]; [reflexivity|].
      apply upds_notin. intro H'; apply H, Hs, H'.
    + apply bits_nodup.
    + apply in_bits_iff. apply map_length.
  - simpl. rewrite Cplus_0_r. apply csum_ext. intros c Hc.
    rewrite <- csum_scal_r. apply csum_ext. intros z Hz.
    assert (E1 : map (upds zeros fs (map x fs)) qs = map x qs).
    { apply map_ext_in. intros q Hq. apply upds_map_in, Hs, Hq. }
    rewrite E1. unfold ket. rewrite eqbits_dec.
    assert (E2 : map (upds (upds zeros fs (map x fs)) qs z) fs = map (upds x qs z) fs).
    { apply map_ext_in. intros q Hq. 
      assert (HH : forall w w' : asg, w q = w' q -> upds w qs z q = upds w' qs z q).
      { intros w w' E. clear - E. revert z; induction qs as [|a qs IH]; intros [|b z]; simpl; auto.
        unfold upd. destruct (Nat.eqb q a); auto. }
      apply HH. apply upds_map_in; exact Hq. }
    rewrite E2. ring.
Qed.

Lemma gate_is_matof fs G : NoDup fs -> gate fs G = gate fs (matof fs (gate fs G)).
Proof. intro H. apply gate_expand; auto. Qed.

(** Controls as a gate. *)
Lemma ctrl_gate fs cs G : (forall q, In q cs -> In q fs) ->
  ctrlop cs (gate fs G) =
  gate fs (fun r c => if forallb (upds zeros fs r) cs then G r c else bid r c).
Proof.
  intros Hs. extensionality psi. extensionality x. unfold ctrlop.
  assert (E : forallb (upds zeros fs (map x fs)) cs = forallb x cs).
  { clear - Hs. induction cs as [|a cs IH]; simpl; [reflexivity|].
    rewrite upds_map_in by (apply Hs; left; reflexivity).
    rewrite IH; [reflexivity|]. intros q Hq; apply Hs; right; exact Hq. }
  destruct (forallb x cs) eqn:Ex; unfold gate.
  - apply csum_ext. intros y Hy. rewrite E. reflexivity.
  - transitivity (gate fs bid psi x); [rewrite gate_bid; reflexivity|].
    unfold gate. apply csum_ext. intros y Hy. rewrite E. reflexivity.
Qed.

Lemma loc_is_gate (T : nat -> Prop) fs A : NoDup fs -> (forall q, T q -> In q fs) -> loc T A ->
  A = gate fs (matof fs A).
Proof.
  intros Hn Hs HA.
  assert (H : exists G, A = gate fs G).
  { induction HA as [qs G HT| | |A B HA [GA IHA] HB [GB IHB]|A B HA [GA IHA] HB [GB IHB]|k A HA [GA IHA]|ds A HT HA [GA IHA]].
    - exists (matof fs (gate qs G)). apply gate_expand; auto.
    - exists bid. symmetry; apply gate_bid.
    - exists (fun _ _ => 0). symmetry; apply gate_zero.
    - eexists. rewrite IHA, IHB. apply gate_gate; assumption.
    - eexists. rewrite IHA, IHB. symmetry; apply gate_add.
    - eexists. rewrite IHA. symmetry; apply gate_scale.
    - eexists. rewrite IHA. apply ctrl_gate. auto. }
  destruct H as [G ->]. apply gate_is_matof; exact Hn.
Qed.

Lemma den_is_gate rho b fs : NoDup fs -> (forall q, In q (qubits b) -> In q fs) ->
  den rho b = gate fs (matof fs (den rho b)).
Proof. intros Hn Hs. eapply loc_is_gate; [exact Hn|exact Hs|apply den_loc]. Qed.

Lemma loc_eq (T : nat -> Prop) fs A B : NoDup fs -> (forall q, T q -> In q fs) -> loc T A -> loc T B ->
  (forall r c, length r = length fs -> length c = length fs -> matof fs A r c = matof fs B r c) ->
  A = B.
Proof.
  intros Hn Hs HA HB H.
  rewrite (loc_is_gate T fs A Hn Hs HA), (loc_is_gate T fs B Hn Hs HB).
  apply gate_ext. intros; apply H; auto.
Qed.

Lemma matof_seq (T : nat -> Prop) fs A B r c : NoDup fs -> (forall q, T q -> In q fs) -> loc T A -> loc T B ->
  length r = length fs -> length c = length fs ->
  matof fs (seqop A B) r c = csum (fun z => matof fs B r z * matof fs A z c) (bits (length fs)).
Proof.
  intros Hn Hs HA HB Hr Hc.
  rewrite (loc_is_gate T fs A Hn Hs HA) at 1. rewrite (loc_is_gate T fs B Hn Hs HB) at 1.
  rewrite gate_gate by assumption. rewrite matof_gate by assumption. reflexivity.
Qed.

Lemma matof_add fs A B r c : matof fs (addop A B) r c = matof fs A r c + matof fs B r c.
Proof. reflexivity. Qed.
Lemma matof_scale fs k A r c : matof fs (scaleop k A) r c = k * matof fs A r c.
Proof. reflexivity. Qed.
Lemma matof_id fs r c : NoDup fs -> length r = length fs -> length c = length fs ->
  matof fs idop r c = bid r c.
Proof. intros. rewrite <- (gate_bid fs). apply matof_gate; assumption. Qed.
Lemma matof_zero fs r c : matof fs zeroop r c = 0.
Proof. reflexivity. Qed.
Lemma matof_ctrl fs cs A r c : NoDup fs -> (forall q, In q cs -> In q fs) -> length r = length fs -> length c = length fs ->
  matof fs (ctrlop cs A) r c = if forallb (upds zeros fs r) cs then matof fs A r c else bid r c.
Proof.
  intros Hn Hs Hr Hc. unfold matof, ctrlop.
  destruct (forallb (upds zeros fs r) cs); [reflexivity|].
  fold (matof fs idop r c). apply matof_id; assumption.
Qed.

Lemma NoDup_app_inv {A} (l1 l2 : list A) : NoDup (l1 ++ l2) ->
  NoDup l1 /\ NoDup l2 /\ (forall q, In q l1 -> In q l2 -> False).
Proof.
  induction l1 as [|a l IH]; simpl; intro H.
  - split; [constructor|]. split; [exact H|tauto].
  - inversion H as [|? ? Hni Hn']; subst. destruct (IH Hn') as (h1 & h2 & h3).
    split; [|split; [exact h2|]].
    + constructor; [|exact h1]. intro Hi. apply Hni, in_app_iff; left; exact Hi.
    + intros q [->|Hq] H2; [|eauto]. apply Hni, in_app_iff; right; exact H2.
Qed.

(** Tensor products: independent operators on disjoint qubits have product entries. *)
Lemma matof_kron f1 f2 A B r1 c1 r2 c2 : NoDup (f1 ++ f2) ->
  loc (fun q => In q f1) A -> loc (fun q => In q f2) B ->
  length r1 = length f1 -> length c1 = length f1 -> length r2 = length f2 -> length c2 = length f2 ->
  matof (f1 ++ f2) (seqop A B) (r1 ++ r2) (c1 ++ c2) = matof f1 A r1 c1 * matof f2 B r2 c2.
Proof.
  intros Hn HA HB l1 l2 l3 l4.
  destruct (NoDup_app_inv _ _ Hn) as (N1 & N2 & Hd).
  rewrite (loc_is_gate _ f1 A N1 (fun q h => h) HA) at 1.
  rewrite (loc_is_gate _ f2 B N2 (fun q h => h) HB) at 1.
  rewrite (gate_disjoint_comm f1 f2) by exact Hd.
  rewrite <- gate_kron by exact Hd.
  rewrite matof_gate; try assumption; try (rewrite !app_length; congruence).
  unfold bkron. rewrite !firstn_app, !skipn_app.
  rewrite l1, l2, !Nat.sub_diag, !firstn_O, !app_nil_r.
  rewrite !firstn_all2 by lia. rewrite (skipn_all2 r1) by lia. rewrite (skipn_all2 c1) by lia.
  reflexivity.
Qed.
