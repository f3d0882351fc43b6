(** C01: qubit supports form a join semilattice. *)
From Coq Require Import List ZArith Arith Bool Lia.
From Verif Require Import M_QubitSupport S_Sets L_QubitSupport.
Import ListNotations.

(** Specification: a nested sum of local supports, and the qubits it names. *)
Inductive sumtree : Type := Leaf (l : list nat) | Plus (a b : sumtree).
Fixpoint names (t : sumtree) (q : nat) : Prop :=
  match t with Leaf l => In q l | Plus a b => names a q \/ names b q end.
Fixpoint run_sum (set_iter : list nat -> list nat) (t : sumtree) : support :=
  match t with
  | Leaf l => SLocal l
  | Plus a b => qs_add set_iter (run_sum set_iter a) (run_sum set_iter b)
  end.
Fixpoint leaves (t : sumtree) : list (list nat) :=
  match t with Leaf l => [l] | Plus a b => leaves a ++ leaves b end.

(** Integers are accepted exactly when all are non-negative, and kept in order. *)
Theorem C01_new_ints : forall l : list Z,
  (Forall (fun z => (0 <= z)%Z) l -> qs_new (map INum l) = QOk (SLocal (map Z.to_nat l))) /\
  (~ Forall (fun z => (0 <= z)%Z) l -> qs_new (map INum l) = QErr EValue).
Proof. exact (fun l => conj (qs_new_nums_ok l) (qs_new_nums_bad l)). Qed.

(** Whatever the caller passes, a successful construction comes from the single marker "global" or from
    non-negative integers only (possibly wrapped in single tuples). *)
Theorem C01_new_sound : forall args s, qs_new args = QOk s ->
  (unwrap args = [IGlobal] /\ s = SGlobal) \/
  (exists zs, unwrap args = map INum zs /\ Forall (fun z => (0 <= z)%Z) zs /\
              s = SLocal (map Z.to_nat zs)).
Proof. exact qs_new_inv. Qed.

Theorem C01_new_global : qs_new [IGlobal] = QOk SGlobal /\ qs_new [ITup [IGlobal]] = QOk SGlobal.
Proof. exact (conj eq_refl eq_refl). Qed.

(** A sum of local supports names exactly the qubits of its summands, for every grouping, and has no
    repetition if its summands have none. *)
Theorem C01_sum_is_union : forall set_iter, set_order set_iter ->
  forall t, exists l, run_sum set_iter t = SLocal l /\ (forall q, In q l <-> names t q) /\
                      (Forall (@NoDup nat) (leaves t) -> NoDup l).
Proof.
  intros si Hs t. induction t as [l|a (la & Ea & Ha & Na) b (lb & Eb & Hb & Nb)]; simpl.
  - exists l. split; [reflexivity|]. split; [tauto|]. intro H. inversion H; assumption.
  - rewrite Ea, Eb. destruct (qs_add_local si Hs la lb) as (l & E & Hl & Nl).
    exists l. split; [exact E|]. split.
    + intro q. rewrite Hl, Ha, Hb. tauto.
    + intro H. apply Forall_app in H. apply Nl, Na, H.
Qed.

Theorem C01_add_idempotent : forall set_iter s, qs_add set_iter s s = s.
Proof.
  intros si s. unfold qs_add.
  destruct (support_eqb s s) eqn:E; [reflexivity|].
  assert (support_eqb s s = true) by (apply support_eqb_spec; reflexivity). congruence.
Qed.

(** A global support plus a non-empty local one names every qubit up to the largest, on either side. *)
Theorem C01_add_global : forall set_iter l, l <> [] ->
  exists r, qs_add set_iter SGlobal (SLocal l) = SLocal r /\
            qs_add set_iter (SLocal l) SGlobal = SLocal r /\
            NoDup r /\ (forall q, In q r <-> exists m, In m l /\ q <= m).
Proof.
  intros si l Hl. exists (seq 0 (list_max l + 1)).
  destruct l as [|a l']; [congruence|]. remember (a :: l') as l eqn:El.
  assert (Hmax : forall q, q <= list_max l <-> exists m, In m l /\ q <= m).
  { intro q. split.
    - intro Hq. pose proof (list_max_le l (list_max l)) as [H _].
      assert (Hin : In (list_max l) l).
      { clear - Hl. induction l as [|x r IH]; [congruence|]. simpl.
        destruct (Nat.max_spec x (list_max r)) as [[H1 H2]|[H1 H2]]; rewrite H2; [|left; reflexivity].
        right. apply IH. intro; subst; simpl in H1; lia. }
      eauto.
    - intros (m & Hm & Hq). pose proof (proj1 (list_max_le l (list_max l)) (le_n _)) as H.
      rewrite Forall_forall in H. specialize (H _ Hm). lia. }
  assert (Hr : range_to_max l = SLocal (seq 0 (list_max l + 1))) by (subst l; reflexivity).
  unfold qs_add; simpl; rewrite !Hr. repeat split.
  - apply seq_NoDup.
  - intro H. apply in_seq in H. apply Hmax. lia.
  - intro H. apply in_seq. apply Hmax in H. lia.
Qed.

(** Adding the empty support to a local support changes nothing about the qubits named. *)
Theorem C01_add_empty : forall set_iter, set_order set_iter -> forall l,
  exists r, qs_add set_iter (SLocal l) (SLocal []) = SLocal r /\ (forall q, In q r <-> In q l).
Proof.
  intros si Hs l. destruct (qs_add_local si Hs l []) as (r & E & H & _).
  exists r. split; [exact E|]. intro q. rewrite H. simpl. tauto.
Qed.

Theorem C01_disjoint : forall a b,
  qs_is_disjoint a b = true <->
  exists la lb, a = SLocal la /\ b = SLocal lb /\ (forall q, In q la -> In q lb -> False).
Proof.
  intros a b. split.
  - destruct a as [|la], b as [|lb]; try (simpl; discriminate). intro H.
    exists la, lb. repeat split. apply qs_disjoint_spec. exact H.
  - intros (la & lb & -> & -> & H). apply qs_disjoint_spec. exact H.
Qed.

(** Finding: with a global operand the sum is not associative: ("global" + {2}) + {5} omits qubits 3, 4. *)
Theorem C01_global_associativity_refuted :
  exists set_iter, set_order set_iter /\ exists a b c la lb,
    qs_add set_iter (qs_add set_iter a b) c = SLocal la /\
    qs_add set_iter a (qs_add set_iter b c) = SLocal lb /\ In 3 lb /\ ~ In 3 la.
Proof.
  exists (nodup Nat.eq_dec). split.
  - intro l. split; [apply NoDup_nodup|intro q; apply nodup_In].
  - exists SGlobal, (SLocal [2]), (SLocal [5]), [0;1;2;5], [0;1;2;3;4;5].
    repeat split; simpl; intuition discriminate.
Qed.

(** The hypothesis on set order is satisfiable (insertion order without repeats), and so is a
    non-trivial grouping. *)
Example C01_witness :
  set_order (nodup Nat.eq_dec) /\
  run_sum (nodup Nat.eq_dec) (Plus (Leaf [3;1]) (Plus (Leaf [1;4]) (Leaf [0]))) = SLocal [3;1;4;0].
Proof.
  split; [|reflexivity]. intro l. split; [apply NoDup_nodup|intro q; apply nodup_In].
Qed.

Print Assumptions C01_new_ints.
Print Assumptions C01_new_sound.
Print Assumptions C01_sum_is_union.
Print Assumptions C01_add_global.
Print Assumptions C01_disjoint.
Print Assumptions C01_global_associativity_refuted.
