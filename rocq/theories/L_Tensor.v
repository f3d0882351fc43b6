(** Facts about the matrix model: indices are bit strings, matrices represent operators. *)
From Coq Require Import String Reals List Arith Bool Lia Lra FunctionalExtensionality Permutation Sorted.
From Coquelicot Require Import Coquelicot.
From Coq Require Import List.
From Verif Require Import S_Ops M_QubitSupport M_Block S_Den L_Ops L_Den L_Loc L_Adj M_BlockOps M_Tensor.
Import ListNotations.
Open Scope R_scope.
Open Scope C_scope.

(** * Bit strings and integers *)
Lemma bits_to_nat_lt b : (bits_to_nat b < 2 ^ length b)%nat.
Proof.
  induction b as [|x b IH]; simpl; [lia|]. destruct x; simpl; lia.
Qed.

Lemma bits_to_nat_app a b : bits_to_nat (a ++ b) = (bits_to_nat a * 2 ^ length b + bits_to_nat b)%nat.
Proof.
  induction a as [|x a IH]; simpl; [reflexivity|]. rewrite IH, app_length, Nat.pow_add_r. ring.
Qed.

Lemma bits_to_nat_inj a : forall b, length a = length b -> bits_to_nat a = bits_to_nat b -> a = b.
Proof.
  induction a as [|x a IH]; intros [|y b]; simpl; intros Hl H; try discriminate; [reflexivity|].
  injection Hl as Hl. pose proof (bits_to_nat_lt a). pose proof (bits_to_nat_lt b).
  rewrite <- Hl in *.
  assert (x = y) as -> by (destruct x, y; simpl in H; try reflexivity; lia).
  f_equal. apply IH; [assumption|lia].
Qed.

Lemma map_bits_seq n : map bits_to_nat (bits n) = seq 0 (2 ^ n).
Proof.
  induction n as [|n IH]; [reflexivity|].
  cbn [bits]. rewrite map_app, !map_map.
  replace (2 ^ S n)%nat with (2 ^ n + 2 ^ n)%nat by (simpl; lia). rewrite seq_app, <- IH. f_equal.
  rewrite Nat.add_0_l.
  assert (E : seq (2 ^ n) (2 ^ n) = map (fun k => (2 ^ n + k)%nat) (seq 0 (2 ^ n))).
  { generalize (2 ^ n)%nat at 1 3 as s. generalize (2 ^ n)%nat as m. intros m s.
    rewrite <- (Nat.add_0_r s) at 1. generalize 0%nat as o. induction m as [|m IHm]; intros o; simpl; [reflexivity|].
    f_equal. rewrite <- IHm. f_equal. lia. }
  rewrite E, <- IH, map_map. apply map_ext_in. intros b Hb. apply bits_length in Hb. simpl. rewrite Hb. lia.
Qed.

Lemma csum_seq_bits n (f : nat -> C) : csum f (seq 0 (2 ^ n)) = csum (fun b => f (bits_to_nat b)) (bits n).
Proof. rewrite <- map_bits_seq, csum_map. reflexivity. Qed.

Lemma eqb_bits a b : length a = length b -> Nat.eqb (bits_to_nat a) (bits_to_nat b) = eqbits a b.
Proof.
  intros Hl. destruct (eqbits a b) eqn:E.
  - apply eqbits_true in E. subst. apply Nat.eqb_refl.
  - apply eqbits_false in E. apply Nat.eqb_neq. intros H. apply E. apply bits_to_nat_inj; assumption.
Qed.

(** * Matrices representing operators *)
Definition rep (fs : list nat) (M : tensor) (A : Op) : Prop :=
  dim M = (2 ^ length fs)%nat /\ gate fs (nmat (ent M)) = A.

Lemma nmat_kron A B a1 a2 b1 b2 : dim B = (2 ^ length a2)%nat -> length b2 = length a2 ->
  nmat (ent (t_kron A B)) (a1 ++ a2) (b1 ++ b2) = nmat (ent A) a1 b1 * nmat (ent B) a2 b2.
Proof.
  intros H Hl. unfold nmat, t_kron. cbn [ent dim]. rewrite !bits_to_nat_app, H, Hl.
  pose proof (bits_to_nat_lt a2). pose proof (bits_to_nat_lt b2). rewrite Hl in *.
  assert (2 ^ length a2 <> 0)%nat by lia.
  rewrite !Nat.div_add_l, !Nat.div_small, !Nat.add_0_r by assumption.
  rewrite !(Nat.add_comm (_ * _)), !Nat.mod_add, !Nat.mod_small by assumption. reflexivity.
Qed.

Lemma rep_kron f1 f2 M1 M2 A B : (forall q, In q f1 -> In q f2 -> False) ->
  rep f1 M1 A -> rep f2 M2 B -> rep (f1 ++ f2) (t_kron M1 M2) (seqop B A).
Proof.
  intros Hd [D1 E1] [D2 E2]. split.
  - cbn [dim t_kron]. rewrite D1, D2, app_length, Nat.pow_add_r. reflexivity.
  - rewrite <- E1, <- E2, <- gate_kron by assumption. apply gate_ext. intros r c Hr Hc.
    rewrite app_length in Hr, Hc. unfold bkron.
    rewrite <- (firstn_skipn (length f1) r) at 1. rewrite <- (firstn_skipn (length f1) c) at 1.
    apply nmat_kron; rewrite ?D2, !skipn_length; [f_equal; lia|lia].
Qed.

Lemma rep_mul fs M1 M2 A B : NoDup fs -> rep fs M1 A -> rep fs M2 B ->
  exists M, t_mul M1 M2 = Some M /\ rep fs M (seqop B A).
Proof.
  intros N [D1 E1] [D2 E2]. unfold t_mul. rewrite D1, D2, Nat.eqb_refl.
  eexists; split; [reflexivity|]. split; [reflexivity|].
  rewrite <- E1, <- E2, gate_gate by assumption. apply gate_ext. intros r c Hr Hc.
  unfold nmat at 1. cbn [ent]. rewrite csum_seq_bits. reflexivity.
Qed.

Lemma rep_add fs M1 M2 A B : rep fs M1 A -> rep fs M2 B ->
  exists M, t_add M1 M2 = Some M /\ rep fs M (addop A B).
Proof.
  intros [D1 E1] [D2 E2]. unfold t_add. rewrite D1, D2, Nat.eqb_refl.
  eexists; split; [reflexivity|]. split; [reflexivity|].
  rewrite <- E1, <- E2, <- gate_add. reflexivity.
Qed.

Lemma rep_scale fs k M A : rep fs M A -> rep fs (t_scale k M) (scaleop k A).
Proof. intros [D E]. split; [exact D|]. rewrite <- E, <- gate_scale. reflexivity. Qed.

Lemma rep_id1 q : rep [q] IMAT idop.
Proof.
  split; [reflexivity|]. rewrite <- (gate_bid [q]). apply gate_ext.
  intros [|a [|a1 a2]] [|b [|b1 b2]]; intros; try discriminate. unfold bid.
  destruct a, b; reflexivity.
Qed.

Lemma rep_zero1 q : rep [q] ZEROMAT zeroop.
Proof.
  split; [reflexivity|]. rewrite <- (gate_zero [q]). apply gate_ext.
  intros [|a [|a1 a2]] [|b [|b1 b2]]; intros; try discriminate. destruct a, b; reflexivity.
Qed.

Lemma zero_seq A : seqop A zeroop = zeroop.
Proof. reflexivity. Qed.

Lemma rep_iter (g : tensor) (A : Op) (HA : seqop A A = A) : (forall q, rep [q] g A) ->
  forall fs, NoDup fs -> fs <> [] -> rep fs (Nat.iter (length fs - 1) (fun m => t_kron m g) g) A.
Proof.
  intros Hg fs. induction fs as [|q fs IH] using rev_ind; intros N Hne; [congruence|].
  rewrite app_length. cbn [length]. replace (length fs + 1 - 1)%nat with (length fs) by lia.
  destruct fs as [|p fs]; [apply Hg|].
  cbn [length Nat.iter nat_rect]. apply NoDup_app_inv in N as (N1 & _ & Hd).
  rewrite <- HA. apply rep_kron; [assumption| |apply Hg].
  replace (length fs) with (length (p :: fs) - 1)%nat by (simpl; lia). apply IH; [assumption|discriminate].
Qed.

Lemma rep_eye fs : NoDup fs -> fs <> [] -> rep fs (eye_n (length fs)) idop.
Proof. intros. apply rep_iter; auto using rep_id1. Qed.
Lemma rep_zero fs : NoDup fs -> fs <> [] -> rep fs (zero_n (length fs)) zeroop.
Proof. intros. apply rep_iter; auto using rep_zero1. Qed.

(** * Loops *)
Definition orep fs (m : option tensor) (A : Op) : Prop := exists M, m = Some M /\ rep fs M A.

Lemma chain_loop fs ms As : NoDup fs -> Forall2 (orep fs) ms As ->
  forall acc A0, orep fs acc A0 ->
  orep fs (fold_left (fun acc m => obind acc (fun mat => obind m (fun other => t_mul other mat))) ms acc)
          (fold_left seqop As A0).
Proof.
  intros N. induction 1 as [|m A ms As [M [-> Hm]] _ IH]; intros acc A0 [M0 [-> H0]]; simpl.
  - exists M0; split; [reflexivity|assumption].
  - apply IH. destruct (rep_mul fs M M0 A A0 N Hm H0) as (M' & E & HM'). exists M'; split; assumption.
Qed.

Lemma fold_seqop As : forall A0, fold_left seqop As A0 = seqop A0 (fold_right seqop idop As).
Proof.
  induction As as [|A As IH]; intros A0; simpl; [symmetry; apply seqop_id_r|].
  rewrite IH, seqop_assoc. reflexivity.
Qed.

Lemma chain_rep fs ms As : NoDup fs -> fs <> [] -> Forall2 (orep fs) ms As ->
  orep fs (chain_t (length fs) ms) (fold_right seqop idop As).
Proof.
  intros N Hne H. rewrite <- (seqop_id_l (fold_right _ _ _)), <- fold_seqop.
  apply chain_loop; [assumption|assumption|]. eexists; split; [reflexivity|apply rep_eye; assumption].
Qed.

Lemma add_loop fs ms As : Forall2 (orep fs) ms As ->
  forall acc A0, orep fs acc A0 ->
  orep fs (fold_left (fun acc m => obind acc (fun mat => obind m (fun other => t_add mat other))) ms acc)
          (fold_left addop As A0).
Proof.
  induction 1 as [|m A ms As [M [-> Hm]] _ IH]; intros acc A0 [M0 [-> H0]]; simpl.
  - exists M0; split; [reflexivity|assumption].
  - apply IH. destruct (rep_add fs M0 M A0 A H0 Hm) as (M' & E & HM'). exists M'; split; assumption.
Qed.

Lemma fold_addop As : forall A0, fold_left addop As A0 = addop A0 (fold_right addop zeroop As).
Proof.
  induction As as [|A As IH]; intros A0; simpl; [symmetry; apply addop_zero_r|].
  rewrite IH, addop_assoc. reflexivity.
Qed.

Lemma add_rep fs ms As : NoDup fs -> fs <> [] -> Forall2 (orep fs) ms As ->
  orep fs (add_t (length fs) ms) (fold_right addop zeroop As).
Proof.
  intros N Hne H. rewrite <- (addop_zero_l (fold_right _ _ _)), <- fold_addop.
  apply add_loop; [assumption|]. eexists; split; [reflexivity|apply rep_zero; assumption].
Qed.

(** * Sorting *)
Lemma insert_perm a l : Permutation (insert a l) (a :: l).
Proof.
  induction l as [|b l IH]; simpl; [apply Permutation_refl|].
  destruct (Nat.leb a b); [apply Permutation_refl|].
  apply perm_trans with (b :: a :: l); [apply perm_skip, IH|apply perm_swap].
Qed.
Lemma sorted_perm l : Permutation (sorted l) l.
Proof.
  induction l as [|a l IH]; simpl; [apply perm_nil|].
  apply perm_trans with (a :: sorted l); [apply insert_perm|apply perm_skip, IH].
Qed.
Lemma insert_ss a l : StronglySorted le l -> StronglySorted le (insert a l).
Proof.
  induction 1 as [|b l Hs IH Hf]; simpl; [repeat constructor|].
  destruct (Nat.leb_spec a b) as [Hab|Hab].
  - constructor; [constructor; assumption|]. constructor; [exact Hab|].
    eapply Forall_impl; [|exact Hf]. intros; simpl in *; lia.
  - constructor; [exact IH|]. apply Forall_forall. intros x Hx.
    apply (Permutation_in _ (insert_perm a l)) in Hx. destruct Hx as [<- | Hx]; [lia|].
    rewrite Forall_forall in Hf. auto.
Qed.
Lemma sorted_ss l : StronglySorted le (sorted l).
Proof. induction l; simpl; [constructor|apply insert_ss; assumption]. Qed.
Lemma ss_unique l1 : forall l2, StronglySorted le l1 -> StronglySorted le l2 -> Permutation l1 l2 -> l1 = l2.
Proof.
  induction l1 as [|a l1 IH]; intros l2 H1 H2 HP.
  - apply Permutation_nil in HP. congruence.
  - destruct l2 as [|b l2]; [symmetry in HP; apply Permutation_nil in HP; discriminate|].
    inversion H1 as [|? ? S1 F1]; inversion H2 as [|? ? S2 F2]; subst.
    rewrite Forall_forall in F1, F2.
    assert (a = b) as ->.
    { assert (In a (b :: l2)) as Ha by (eapply Permutation_in; [exact HP|left; reflexivity]).
      assert (In b (a :: l1)) as Hb by (eapply Permutation_in; [symmetry; exact HP|left; reflexivity]).
      destruct Ha as [->|Ha]; [reflexivity|]. destruct Hb as [->|Hb]; [reflexivity|].
      apply F2 in Ha. apply F1 in Hb. lia. }
    f_equal. apply IH; auto. eapply Permutation_cons_inv; exact HP.
Qed.
Lemma ss_app_inv l1 l2 : StronglySorted le (l1 ++ l2) -> StronglySorted le l1 /\ StronglySorted le l2.
Proof.
  induction l1 as [|a l1 IH]; simpl; intros H; [split; [constructor|exact H]|].
  inversion H as [|? ? S F]; subst. destruct (IH S) as [HA HB]. split; [|exact HB].
  constructor; [exact HA|]. rewrite Forall_forall in *. intros x Hx. apply F, in_or_app; auto.
Qed.
Lemma sorted_nodup l : NoDup l -> NoDup (sorted l).
Proof. intros H. eapply Permutation_NoDup; [symmetry; apply sorted_perm|exact H]. Qed.
Lemma in_sorted q l : In q (sorted l) <-> In q l.
Proof. split; apply Permutation_in; [|symmetry]; apply sorted_perm. Qed.
Lemma sorted_length l : length (sorted l) = length l.
Proof. apply Permutation_length, sorted_perm. Qed.

(** * Filling with identities *)
Definition ord (e : endian) (l : list nat) : list nat := match e with BIG => l | LITTLE => rev l end.

Lemma ord_length e l : length (ord e l) = length l.
Proof. destruct e; simpl; [reflexivity|apply rev_length]. Qed.
Lemma in_ord e l q : In q (ord e l) <-> In q l.
Proof. destruct e; simpl; [reflexivity|symmetry; apply in_rev]. Qed.
Lemma ord_nodup e l : NoDup l -> NoDup (ord e l).
Proof. destruct e; simpl; [auto|apply NoDup_rev]. Qed.
Lemma ord_ord e l : ord e (ord e l) = l.
Proof. destruct e; simpl; [reflexivity|apply rev_involutive]. Qed.

Lemma rep_gate_form fs M A : rep fs M A -> A = gate fs (nmat (ent M)).
Proof. intros [_ E]. symmetry; exact E. Qed.

Lemma rep_kend e p s mat other A B : (forall q, In q p -> In q s -> False) ->
  rep (ord e p) mat A -> rep (ord e s) other B ->
  rep (ord e (p ++ s)) (kron_end e mat other) (seqop B A).
Proof.
  intros Hd HA HB. destruct e; simpl in *.
  - apply rep_kron; assumption.
  - rewrite rev_app_distr.
    assert (E : seqop B A = seqop A B).
    { rewrite (rep_gate_form _ _ _ HA), (rep_gate_form _ _ _ HB). apply gate_disjoint_comm.
      intros q H1 H2. apply in_rev in H1, H2. eauto. }
    rewrite E. apply rep_kron; [|assumption|assumption].
    intros q H1 H2. apply in_rev in H1, H2. eauto.
Qed.

Section Fill.
  Variables (e : endian) (M : tensor) (qs : list nat) (q0 : nat).
  Hypothesis Hq0 : In q0 qs.

  Lemma existsb_in i : existsb (Nat.eqb i) qs = true <-> In i qs.
  Proof.
    rewrite existsb_exists. split.
    - intros (x & Hx & E). apply Nat.eqb_eq in E. subst. exact Hx.
    - intros H. exists i. split; [exact H|apply Nat.eqb_refl].
  Qed.

  Lemma fill_ids l : forall p mat A, NoDup (p ++ l) -> (forall q, In q l -> ~ In q qs) ->
    rep (ord e p) mat A -> rep (ord e (p ++ l)) (fold_left (fill_step e M qs q0) l mat) A.
  Proof.
    induction l as [|i l IH]; intros p mat A N Hl HA; simpl.
    - rewrite app_nil_r. exact HA.
    - replace (p ++ i :: l) with ((p ++ [i]) ++ l) in * by (rewrite <- app_assoc; reflexivity).
      apply IH; [exact N|intros; apply Hl; right; assumption|].
      unfold fill_step.
      assert (Hi : ~ In i qs) by (apply Hl; left; reflexivity).
      destruct (Nat.eqb_spec i q0) as [->|_]; [contradiction|].
      destruct (existsb (Nat.eqb i) qs) eqn:E; [apply existsb_in in E; contradiction|].
      rewrite <- (seqop_id_l A). apply rep_kend; [|exact HA|].
      + apply NoDup_app_inv in N as (N & _ & _). apply NoDup_app_inv in N as (_ & _ & N). exact N.
      + destruct e; apply rep_id1.
  Qed.

  Lemma fill_skip l : forall mat, (forall q, In q l -> In q qs /\ q <> q0) ->
    fold_left (fill_step e M qs q0) l mat = mat.
  Proof.
    induction l as [|i l IH]; intros mat Hl; simpl; [reflexivity|].
    rewrite IH by (intros; apply Hl; right; assumption).
    unfold fill_step. destruct (Hl i (or_introl eq_refl)) as [Hi Hne].
    destruct (Nat.eqb_spec i q0) as [->|_]; [congruence|].
    destruct (existsb (Nat.eqb i) qs) eqn:E; [reflexivity|].
    apply existsb_in in Hi. congruence.
  Qed.
End Fill.

Lemma fill_rep e M qs full p l G :
  NoDup full -> qs <> [] -> sorted full = p ++ sorted qs ++ l ->
  rep (ord e (sorted qs)) M G ->
  orep (ord e (sorted full)) (t_fill_identities e M qs full) G.
Proof.
  intros N Hne Hs HM. unfold t_fill_identities.
  assert (NS : NoDup (p ++ sorted qs ++ l)) by (rewrite <- Hs; apply sorted_nodup, N).
  rewrite Hs.
  destruct (sorted qs) as [|q0 s] eqn:Es.
  { exfalso. apply Hne. apply length_zero_iff_nil. rewrite <- sorted_length, Es. reflexivity. }
  pose proof NS as NS'.
  apply NoDup_app_inv in NS' as (Np & Nsl & Hd1). apply NoDup_app_inv in Nsl as (Nq & Nl & Hd2).
  assert (Hskip : forall mat, fold_left (fill_step e M (q0 :: s) q0) s mat = mat).
  { intros mat. apply fill_skip. intros q Hq. split; [right; exact Hq|]. inversion Nq; subst. congruence. }
  destruct p as [|f0 p'].
  - cbn [app]. rewrite Nat.eqb_refl. eexists; split; [reflexivity|].
    rewrite fold_left_app, Hskip. change (q0 :: s ++ l) with ((q0 :: s) ++ l).
    apply fill_ids; [left; reflexivity|exact NS| |exact HM].
    intros q Hq Hin. eapply Hd2; eassumption.
  - cbn [app]. destruct (Nat.eqb_spec q0 f0) as [E|_].
    { exfalso. apply (Hd1 f0); [left; reflexivity|]. rewrite E. left; reflexivity. }
    eexists; split; [reflexivity|].
    rewrite fold_left_app. cbn [app fold_left]. rewrite fold_left_app, Hskip.
    change (f0 :: p' ++ q0 :: s ++ l) with (([f0] ++ p') ++ (q0 :: s) ++ l).
    rewrite app_assoc.
    apply fill_ids; [left; reflexivity|rewrite <- app_assoc; exact NS| |].
    { intros q Hq Hin. eapply Hd2; eassumption. }
    unfold fill_step at 1. rewrite Nat.eqb_refl.
    rewrite <- (seqop_id_r G).
    apply rep_kend; [intros q H1 H2; apply (Hd1 q H1), in_or_app; left; exact H2| |exact HM].
    apply fill_ids; [left; reflexivity|exact Np| |].
    + intros q Hq Hin. apply (Hd1 q); [right; exact Hq|apply in_or_app; left; exact Hin].
    + destruct e; apply rep_id1.
Qed.

Lemma fill_rep1 e M q full G : NoDup full -> In q full -> rep [q] M G ->
  orep (ord e (sorted full)) (t_fill_identities e M [q] full) G.
Proof.
  intros N Hq HM. apply in_sorted in Hq. destruct (in_split _ _ Hq) as (p & l & Hs).
  apply fill_rep with (p := p) (l := l); [exact N|discriminate|exact Hs|].
  destruct e; exact HM.
Qed.

Lemma fill_rep_many e M qs full p l G : NoDup full -> qs <> [] -> ord e (sorted full) = p ++ qs ++ l ->
  rep qs M G -> orep (ord e (sorted full)) (t_fill_identities e M qs full) G.
Proof.
  intros N Hne Hs HM.
  assert (Hs' : sorted full = match e with BIG => p ++ qs ++ l | LITTLE => rev l ++ rev qs ++ rev p end).
  { rewrite <- (ord_ord e (sorted full)), Hs. destruct e; simpl; [reflexivity|].
    rewrite !rev_app_distr, <- !app_assoc. reflexivity. }
  assert (Eq : sorted qs = ord e qs).
  { apply ss_unique; [apply sorted_ss| |].
    - pose proof (sorted_ss full) as S. rewrite Hs' in S. destruct e; simpl.
      + apply ss_app_inv in S as [_ S]. apply ss_app_inv in S as [S _]. exact S.
      + apply ss_app_inv in S as [_ S]. apply ss_app_inv in S as [S _]. exact S.
    - eapply perm_trans; [apply sorted_perm|]. destruct e; simpl; [apply Permutation_refl|apply Permutation_rev]. }
  destruct e; simpl in *.
  - apply fill_rep with (p := p) (l := l); [exact N|exact Hne|rewrite Eq; exact Hs'|simpl; rewrite Eq; exact HM].
  - apply (fill_rep LITTLE) with (p := rev l) (l := rev p); [exact N|exact Hne|rewrite Eq; exact Hs'|].
    simpl; rewrite Eq, rev_involutive. exact HM.
Qed.

(** * Exponentials *)
Lemma t_pow_bits n M k : dim M = (2 ^ n)%nat -> forall r c, length r = n -> length c = n ->
  nmat (t_pow M k) r c = bpow n (nmat (ent M)) k r c.
Proof.
  intros D. induction k as [|k IH]; intros r c Hr Hc; unfold nmat at 1; cbn [t_pow bpow].
  - rewrite eqb_bits by congruence. reflexivity.
  - rewrite D, csum_seq_bits. apply csum_ext. intros z Hz. apply bits_length in Hz.
    f_equal. apply IH; assumption.
Qed.

Lemma rep_exp fs k M A : NoDup fs -> rep fs M A ->
  rep fs (t_exp (t_scale k M)) (gate fs (bexp (length fs) (fun r c => k * matof fs A r c))).
Proof.
  intros N [D E]. split; [exact D|]. apply gate_ext. intros r c Hr Hc. rewrite <- E.
  rewrite (bexp_ext (length fs) _ (nmat (ent (t_scale k M)))); [|intros r' c' Hr' Hc'|exact Hr|exact Hc].
  2:{ rewrite matof_gate by assumption. reflexivity. }
  unfold nmat at 1, t_exp, bexp. cbn [ent dim].
  apply Ceq; cbn [fst snd]; apply Series_ext; intros j;
    (rewrite <- t_pow_bits by (try exact D; assumption); reflexivity).
Qed.

(** matrix of an embedded gate *)
Lemma matof_gate_sub fs u G r c : NoDup fs -> NoDup u -> (forall q, In q u -> In q fs) -> length c = length fs ->
  matof fs (gate u G) r c =
  (if eqbits (map (upds (upds zeros fs r) u (map (upds zeros fs c) u)) fs) c then RtoC 1 else RtoC 0) *
  G (map (upds zeros fs r) u) (map (upds zeros fs c) u).
Proof.
  intros Nf Nu Hu Hc. unfold matof, gate. set (x := upds zeros fs r).
  rewrite (csum_single _ _ (map (upds zeros fs c) u)).
  - unfold ket. apply Cmult_comm.
  - apply bits_nodup.
  - apply in_bits_iff, map_length.
  - intros y Hy Hne. apply bits_length in Hy. unfold ket.
    destruct (eqbits (map (upds x u y) fs) c) eqn:E; [|ring].
    apply eqbits_true in E. exfalso. apply Hne. rewrite <- E.
    transitivity (map (upds x u y) u); [symmetry; apply upds_map; auto|].
    apply map_ext_in. intros q Hin. symmetry. apply upds_map_in, Hu, Hin.
Qed.

Lemma bpow_lift fs u G k : NoDup fs -> NoDup u -> (forall q, In q u -> In q fs) ->
  forall r c, length r = length fs -> length c = length fs ->
  bpow (length fs) (matof fs (gate u G)) k r c = matof fs (gate u (bpow (length u) G k)) r c.
Proof.
  intros Nf Nu Hu. induction k as [|k IH]; intros r c Hr Hc; cbn [bpow].
  - change (bid r c = matof fs (gate u bid) r c). rewrite gate_bid, matof_id by assumption. reflexivity.
  - change (fun r0 c0 => csum (fun z => G r0 z * bpow (length u) G k z c0) (bits (length u)))
      with (bmul (length u) G (bpow (length u) G k)).
    rewrite <- gate_gate by assumption.
    rewrite (matof_seq (fun q => In q u) fs) by (try (apply loc_gate; auto); assumption).
    apply csum_ext. intros z Hz. apply bits_length in Hz. rewrite IH by assumption. reflexivity.
Qed.

Lemma bexp_lift fs u G : NoDup fs -> NoDup u -> (forall q, In q u -> In q fs) ->
  forall r c, length r = length fs -> length c = length fs ->
  bexp (length fs) (matof fs (gate u G)) r c = matof fs (gate u (bexp (length u) G)) r c.
Proof.
  intros Nf Nu Hu r c Hr Hc. rewrite matof_gate_sub by assumption.
  set (d := eqbits _ c). set (r' := map (upds zeros fs r) u). set (c' := map (upds zeros fs c) u).
  assert (H : forall k, bpow (length fs) (matof fs (gate u G)) k r c =
              (if d then RtoC 1 else RtoC 0) * bpow (length u) G k r' c').
  { intros k. rewrite bpow_lift, matof_gate_sub by assumption. reflexivity. }
  unfold bexp. apply Ceq; cbn [fst snd].
  - rewrite (Series_ext _ (fun k => (if d then 1 else 0) * (fst (bpow (length u) G k r' c') / INR (fact k)))%R).
    2:{ intros k. rewrite H. destruct d; simpl; unfold Rdiv; ring. }
    rewrite Series_scal_l. destruct d; simpl; ring.
  - rewrite (Series_ext _ (fun k => (if d then 1 else 0) * (snd (bpow (length u) G k r' c') / INR (fact k)))%R).
    2:{ intros k. rewrite H. destruct d; simpl; unfold Rdiv; ring. }
    rewrite Series_scal_l. destruct d; simpl; ring.
Qed.

Lemma gate_bexp_lift fs u k A : NoDup fs -> NoDup u -> (forall q, In q u -> In q fs) -> loc (fun q => In q u) A ->
  gate fs (bexp (length fs) (fun r c => k * matof fs A r c)) =
  gate u (bexp (length u) (fun r c => k * matof u A r c)).
Proof.
  intros Nf Nu Hu HA.
  rewrite (gate_expand fs u) by assumption. apply gate_ext. intros r c Hr Hc.
  rewrite <- bexp_lift by assumption. apply bexp_ext; [|assumption|assumption].
  intros r0 c0 Hr0 Hc0. rewrite gate_scale, matof_scale. f_equal.
  rewrite <- (loc_is_gate (fun q => In q u) u A) by auto. reflexivity.
Qed.
