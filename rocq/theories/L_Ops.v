From Coq Require Import Reals List Arith Bool Lia FunctionalExtensionality Permutation.
From Coquelicot Require Import Coquelicot.
From Verif Require Import S_Ops.
Import ListNotations.
Open Scope R_scope.
Open Scope C_scope.

(** * Conjugation *)
Lemma Ceq (a b : C) : fst a = fst b -> snd a = snd b -> a = b.
Proof. destruct a, b; simpl; intros; subst; reflexivity. Qed.
Ltac ceq := apply Ceq; simpl; try ring.
Lemma Cconj_plus a b : Cconj (a + b) = Cconj a + Cconj b.
Proof. ceq. Qed.
Lemma Cconj_mult a b : Cconj (a * b) = Cconj a * Cconj b.
Proof. ceq. Qed.
Lemma Cconj_opp a : Cconj (- a) = - Cconj a.
Proof. ceq. Qed.
Lemma Cconj_minus a b : Cconj (a - b) = Cconj a - Cconj b.
Proof. ceq. Qed.
Lemma Cconj_RtoC (r : R) : Cconj (RtoC r) = RtoC r.
Proof. ceq. Qed.
Lemma Cconj_conj a : Cconj (Cconj a) = a.
Proof. ceq. Qed.
Lemma Cconj_Ci : Cconj Ci = - Ci.
Proof. ceq. Qed.

(** * Sums *)
Section Csum.
  Context {A : Type}.
  Lemma csum_app (f : A -> C) l1 l2 : csum f (l1 ++ l2) = csum f l1 + csum f l2.
  Proof. induction l1 as [|a l IH]; simpl; [ring|]. rewrite IH; ring. Qed.
  Lemma csum_ext (f g : A -> C) l : (forall a, In a l -> f a = g a) -> csum f l = csum g l.
  Proof.
    induction l as [|a l IH]; simpl; intro H; [reflexivity|].
    rewrite (H a (or_introl eq_refl)), IH; [reflexivity|]. intros; apply H; right; assumption.
  Qed.
  Lemma csum_plus (f g : A -> C) l : csum (fun a => f a + g a) l = csum f l + csum g l.
  Proof. induction l as [|a l IH]; simpl; [ring|]. rewrite IH; ring. Qed.
  Lemma csum_scal c (f : A -> C) l : csum (fun a => c * f a) l = c * csum f l.
  Proof. induction l as [|a l IH]; simpl; [ring|]. rewrite IH; ring. Qed.
  Lemma csum_scal_r c (f : A -> C) l : csum (fun a => f a * c) l = csum f l * c.
  Proof. induction l as [|a l IH]; simpl; [ring|]. rewrite IH; ring. Qed.
  Lemma csum_zero (l : list A) : csum (fun _ => 0) l = 0.
  Proof. induction l as [|a l IH]; simpl; [reflexivity|]. rewrite IH; ring. Qed.
  Lemma csum_zero' (f : A -> C) l : (forall a, In a l -> f a = 0) -> csum f l = 0.
  Proof. intro H. rewrite (csum_ext f (fun _ => 0) l H). apply csum_zero. Qed.
  Lemma csum_perm (f : A -> C) l l' : Permutation l l' -> csum f l = csum f l'.
  Proof.
    induction 1 as [|x l l' _ IH|x y l|l l1 l2 _ IH1 _ IH2]; simpl.
    - reflexivity.
    - rewrite IH; reflexivity.
    - ring.
    - congruence.
  Qed.
  Lemma csum_conj (f : A -> C) l : Cconj (csum f l) = csum (fun a => Cconj (f a)) l.
  Proof.
    induction l as [|a l IH]; simpl.
    - apply Cconj_RtoC.
    - rewrite Cconj_plus, IH. reflexivity.
  Qed.
End Csum.

Lemma csum_map {A B} (g : A -> B) (f : B -> C) l : csum f (map g l) = csum (fun a => f (g a)) l.
Proof. induction l as [|a l IH]; simpl; congruence. Qed.

Lemma csum_swap {A B} (f : A -> B -> C) l1 l2 :
  csum (fun a => csum (f a) l2) l1 = csum (fun b => csum (fun a => f a b) l1) l2.
Proof.
  induction l1 as [|a l IH]; simpl.
  - symmetry. apply csum_zero.
  - rewrite IH, <- csum_plus. reflexivity.
Qed.

Lemma csum_flat_map {A B} (g : A -> list B) (f : B -> C) l :
  csum f (flat_map g l) = csum (fun a => csum f (g a)) l.
Proof. induction l as [|a l IH]; simpl; [reflexivity|]. rewrite csum_app, IH; reflexivity. Qed.

(** A sum with a single non-zero term. *)
Lemma csum_single {A} (f : A -> C) l a :
  NoDup l -> In a l -> (forall b, In b l -> b <> a -> f b = 0) -> csum f l = f a.
Proof.
  induction l as [|b l IH]; simpl; intros Hn Hi Hz; [tauto|].
  inversion Hn as [|? ? Hb Hn']; subst. destruct Hi as [->|Hi].
  - rewrite csum_zero'; [ring|]. intros c Hc. apply Hz; [right; exact Hc|]. intro; subst; tauto.
  - rewrite Hz; [|left; reflexivity|intro; subst; tauto]. rewrite IH; auto. ring.
Qed.

(** * Bit strings *)
Lemma bits_length n b : In b (bits n) -> length b = n.
Proof.
  revert b; induction n as [|n IH]; simpl; intros b H.
  - destruct H as [<-|[]]; reflexivity.
  - apply in_app_iff in H. destruct H as [H|H]; apply in_map_iff in H; destruct H as (c & <- & Hc);
      simpl; rewrite (IH _ Hc); reflexivity.
Qed.

Lemma in_bits b : In b (bits (length b)).
Proof.
  induction b as [|a b IH]; simpl; [left; reflexivity|].
  apply in_app_iff. destruct a; [right|left]; apply in_map; exact IH.
Qed.

Lemma in_bits_iff n b : In b (bits n) <-> length b = n.
Proof. split; [apply bits_length|]. intros <-. apply in_bits. Qed.

Lemma NoDup_app_intro {A} (l1 l2 : list A) :
  NoDup l1 -> NoDup l2 -> (forall x, In x l1 -> In x l2 -> False) -> NoDup (l1 ++ l2).
Proof.
  induction l1 as [|a l IH]; simpl; intros H1 H2 Hd; [exact H2|].
  inversion H1; subst. constructor.
  - rewrite in_app_iff. intros [H|H]; [tauto|]. eapply Hd; [left; reflexivity|exact H].
  - apply IH; auto. intros x Hx. apply Hd. right; exact Hx.
Qed.

Lemma NoDup_map_inj {A B} (f : A -> B) l :
  (forall x y, In x l -> In y l -> f x = f y -> x = y) -> NoDup l -> NoDup (map f l).
Proof.
  induction l as [|a l IH]; simpl; intros Hf Hn; [constructor|].
  inversion Hn; subst. constructor.
  - intro H. apply in_map_iff in H. destruct H as (b & Hb & Hi).
    assert (b = a) by (apply Hf; auto). subst; tauto.
  - apply IH; auto.
Qed.

Lemma bits_nodup n : NoDup (bits n).
Proof.
  induction n as [|n IH]; simpl; [repeat constructor; tauto|].
  apply NoDup_app_intro.
  - apply NoDup_map_inj; auto. congruence.
  - apply NoDup_map_inj; auto. congruence.
  - intros x H1 H2. apply in_map_iff in H1, H2.
    destruct H1 as (? & <- & _), H2 as (? & ? & _). discriminate.
Qed.

Lemma csum_bits_app n m (f : list bool -> C) :
  csum f (bits (n + m)) = csum (fun a => csum (fun b => f (a ++ b)) (bits m)) (bits n).
Proof.
  revert f. induction n as [|n IH]; intro f; simpl.
  - rewrite Cplus_0_r. reflexivity.
  - rewrite !csum_app, !csum_map, !IH. reflexivity.
Qed.

(** * Assignments *)
Lemma upd_same x q b : upd x q b q = b.
Proof. unfold upd. rewrite Nat.eqb_refl. reflexivity. Qed.
Lemma upd_other x q b k : k <> q -> upd x q b k = x k.
Proof. intro H. unfold upd. destruct (Nat.eqb_spec k q); congruence. Qed.
Lemma upd_upd x q a b : upd (upd x q a) q b = upd x q b.
Proof. extensionality k. unfold upd. destruct (Nat.eqb k q); reflexivity. Qed.
Lemma upd_comm x q r a b : q <> r -> upd (upd x q a) r b = upd (upd x r b) q a.
Proof.
  intro H. extensionality k. unfold upd.
  destruct (Nat.eqb_spec k q), (Nat.eqb_spec k r); subst; congruence.
Qed.
Lemma upd_id x q : upd x q (x q) = x.
Proof. extensionality k. unfold upd. destruct (Nat.eqb_spec k q); subst; reflexivity. Qed.

Lemma upds_notin x qs bs k : ~ In k qs -> upds x qs bs k = x k.
Proof.
  revert bs; induction qs as [|q qs IH]; intros [|b bs] H; simpl; try reflexivity.
  rewrite upd_other; [|intro; subst; apply H; left; reflexivity].
  apply IH. intro; apply H; right; assumption.
Qed.
Lemma upds_map x qs bs : NoDup qs -> length bs = length qs -> map (upds x qs bs) qs = bs.
Proof.
  revert bs; induction qs as [|q qs IH]; intros [|b bs] Hn Hl; simpl in *; try discriminate; auto.
  inversion Hn; subst. rewrite upd_same. f_equal.
  transitivity (map (upds x qs bs) qs).
  - apply map_ext_in. intros k Hk. apply upd_other. intro; subst; tauto.
  - apply IH; auto.
Qed.
Lemma upds_id x qs : upds x qs (map x qs) = x.
Proof. induction qs as [|q qs IH]; simpl; [reflexivity|]. rewrite IH. apply upd_id. Qed.
Lemma upds_upd_in x q b qs bs :
  In q qs -> length bs = length qs -> upds (upd x q b) qs bs = upds x qs bs.
Proof.
  revert bs; induction qs as [|r qs IH]; intros [|c bs] Hi Hl; simpl in *; try discriminate; try tauto.
  destruct (Nat.eq_dec r q) as [->|Hne].
  - destruct (in_dec Nat.eq_dec q qs) as [Hin|Hnin].
    + rewrite IH; auto.
    + assert (H : forall y, upds (upd x q b) qs y = upd (upds x qs y) q b).
      { clear - Hnin. induction qs as [|r qs IH]; intros [|c y]; simpl; auto.
        rewrite IH; [|intro; apply Hnin; right; auto].
        apply upd_comm. intro; subst; apply Hnin; left; reflexivity. }
      rewrite H. apply upd_upd.
  - destruct Hi as [->|Hi]; [congruence|]. rewrite IH; auto.
Qed.
Lemma upds_upds x qs a b : length a = length qs -> length b = length qs ->
  upds (upds x qs a) qs b = upds x qs b.
Proof.
  assert (H : forall rs c, incl rs qs -> length b = length qs ->
               upds (upds x rs c) qs b = upds x qs b).
  { intro rs; induction rs as [|r rs IH]; intros [|d c] Hi Hl; simpl; auto.
    rewrite upds_upd_in; auto.
    - apply IH; auto. intros k Hk; apply Hi; right; exact Hk.
    - apply Hi; left; reflexivity. }
  intros _ Hb. apply H; auto. apply incl_refl.
Qed.
Lemma upds_app x qs rs a b : length a = length qs ->
  upds x (qs ++ rs) (a ++ b) = upds (upds x rs b) qs a.
Proof.
  revert a; induction qs as [|q qs IH]; intros [|c a] Hl; simpl in *; try discriminate; auto.
  rewrite IH; auto.
Qed.
Lemma upds_comm x qs rs a b : (forall q, In q qs -> In q rs -> False) ->
  upds (upds x qs a) rs b = upds (upds x rs b) qs a.
Proof.
  intro Hd. extensionality k.
  destruct (in_dec Nat.eq_dec k rs) as [Hr|Hr].
  - assert (Hq : ~ In k qs) by (intro; eauto).
    rewrite (upds_notin (upds x rs b) qs a k Hq).
    clear Hd. revert b. induction rs as [|r rs IH]; intros [|c b]; simpl in *; try tauto.
    + apply upds_notin; exact Hq.
    + unfold upd. destruct (Nat.eqb_spec k r); [reflexivity|].
      apply IH. destruct Hr; [congruence|assumption].
  - rewrite upds_notin; auto. clear Hd.
    revert a. induction qs as [|q qs IH]; intros [|c a]; simpl; try (rewrite upds_notin; auto; fail).
    + unfold upd. destruct (Nat.eqb_spec k q); [reflexivity|]. apply IH.
Qed.
Lemma map_upds_disj x qs rs b : (forall q, In q qs -> In q rs -> False) ->
  map (upds x rs b) qs = map x qs.
Proof. intro H. apply map_ext_in. intros q Hq. apply upds_notin. eauto. Qed.

Lemma map_upds_eq x qs a : NoDup qs -> length a = length qs -> map (upds x qs a) qs = a.
Proof. apply upds_map. Qed.

(** * Matrices on bit strings *)
Lemma eqbits_refl a : eqbits a a = true.
Proof. unfold eqbits. destruct (list_eq_dec _ a a); congruence. Qed.
Lemma eqbits_true a b : eqbits a b = true <-> a = b.
Proof. unfold eqbits. destruct (list_eq_dec _ a b); split; congruence. Qed.
Lemma eqbits_false a b : eqbits a b = false <-> a <> b.
Proof. unfold eqbits. destruct (list_eq_dec _ a b); split; congruence. Qed.

Definition bid : bmat := fun r c => if eqbits r c then 1 else 0.
Definition bmul (n : nat) (A B : bmat) : bmat :=
  fun r c => csum (fun z => A r z * B z c) (bits n).
Definition bkron (n : nat) (A B : bmat) : bmat :=
  fun r c => A (firstn n r) (firstn n c) * B (skipn n r) (skipn n c).

(** * Gates *)
Lemma gate_ext qs G G' :
  (forall r c, length r = length qs -> length c = length qs -> G r c = G' r c) ->
  gate qs G = gate qs G'.
Proof.
  intro H. extensionality psi. extensionality x. unfold gate. apply csum_ext. intros y Hy.
  rewrite H; auto. rewrite map_length; reflexivity. apply bits_length; exact Hy.
Qed.

Lemma gate_gate fs A B : NoDup fs ->
  seqop (gate fs B) (gate fs A) = gate fs (bmul (length fs) A B).
Proof.
  intro Hn. extensionality psi. extensionality x. unfold seqop, gate, bmul.
  transitivity (csum (fun y => csum (fun z => A (map x fs) y * B y z * psi (upds x fs z)) (bits (length fs)))
                     (bits (length fs))).
  - apply csum_ext. intros y Hy. rewrite <- csum_scal. apply csum_ext. intros z Hz.
    apply bits_length in Hy, Hz. rewrite upds_map, upds_upds; auto. ring.
  - rewrite csum_swap. apply csum_ext. intros z Hz. rewrite <- csum_scal_r. reflexivity.
Qed.

Lemma gate_bid fs : gate fs bid = idop.
Proof.
  extensionality psi. extensionality x. unfold gate, bid, idop.
  rewrite (csum_single _ _ (map x fs)).
  - rewrite eqbits_refl, upds_id. ring.
  - apply bits_nodup.
  - apply in_bits_iff. apply map_length.
  - intros b _ Hb. destruct (eqbits (map x fs) b) eqn:E; [|ring].
    apply eqbits_true in E; congruence.
Qed.

Lemma gate_add fs A B : gate fs (fun r c => A r c + B r c) = addop (gate fs A) (gate fs B).
Proof.
  extensionality psi. extensionality x. unfold gate, addop. rewrite <- csum_plus.
  apply csum_ext. intros; ring.
Qed.
Lemma gate_scale fs k A : gate fs (fun r c => k * A r c) = scaleop k (gate fs A).
Proof.
  extensionality psi. extensionality x. unfold gate, scaleop. rewrite <- csum_scal.
  apply csum_ext. intros; ring.
Qed.
Lemma gate_zero fs : gate fs (fun _ _ => 0) = zeroop.
Proof.
  extensionality psi. extensionality x. unfold gate, zeroop. apply csum_zero'. intros; ring.
Qed.

(** Tensor product: matrices on disjoint qubits. *)
Lemma gate_kron f1 f2 A B : (forall q, In q f1 -> In q f2 -> False) ->
  gate (f1 ++ f2) (bkron (length f1) A B) = seqop (gate f2 B) (gate f1 A).
Proof.
  intro Hd. extensionality psi. extensionality x. unfold seqop, gate, bkron.
  rewrite app_length, csum_bits_app. apply csum_ext. intros a Ha.
  rewrite <- csum_scal. apply csum_ext. intros b Hb.
  apply bits_length in Ha, Hb.
  rewrite map_app, !firstn_app, !skipn_app, map_length, Ha, Nat.sub_diag. simpl.
  rewrite !app_nil_r, !firstn_all2, !skipn_all2 by (rewrite ?map_length; lia). simpl.
  rewrite upds_app; auto. rewrite map_upds_disj; [|intros q H1 H2; eauto].
  rewrite (upds_comm x f1 f2 a b); [|exact Hd]. ring.
Qed.

Lemma gate_disjoint_comm f1 f2 A B : (forall q, In q f1 -> In q f2 -> False) ->
  seqop (gate f1 A) (gate f2 B) = seqop (gate f2 B) (gate f1 A).
Proof.
  intro Hd. extensionality psi. extensionality x. unfold seqop, gate.
  transitivity (csum (fun b => csum (fun a => B (map x f2) b * (A (map x f1) a *
       psi (upds (upds x f1 a) f2 b))) (bits (length f1))) (bits (length f2))).
  - apply csum_ext. intros b Hb. rewrite <- csum_scal. apply csum_ext. intros a Ha.
    rewrite map_upds_disj by (intros q H1 H2; eauto).
    rewrite (upds_comm x f1 f2 a b) by exact Hd. reflexivity.
  - rewrite csum_swap. apply csum_ext. intros a Ha. rewrite <- csum_scal. apply csum_ext.
    intros b Hb. rewrite map_upds_disj by (intros q H1 H2; eauto). ring.
Qed.

(** The matrix read off from a gate is the matrix of the gate. *)
Lemma matof_gate fs G r c : NoDup fs -> length r = length fs -> length c = length fs ->
  matof fs (gate fs G) r c = G r c.
Proof.
  intros Hn Hr Hc. unfold matof, gate, ket.
  rewrite (csum_single _ _ c).
  - rewrite !upds_map by auto. rewrite eqbits_refl. ring.
  - apply bits_nodup.
  - apply in_bits_iff; exact Hc.
  - intros b Hb Hne. apply bits_length in Hb. rewrite !upds_map by auto.
    destruct (eqbits b c) eqn:E; [apply eqbits_true in E; congruence|ring].
Qed.
