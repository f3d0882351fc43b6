(** C02: composite blocks report exactly the qubits of their leaves; kron never overlaps. *)
From Coq Require Import String Reals List Arith Bool Lia.
From Coquelicot Require Import Coquelicot.
From Coq Require Import List.
From Verif Require Import S_Sets S_Ops M_QubitSupport L_QubitSupport M_Block S_Den L_Den M_BlockOps L_Support.
Import ListNotations.
Open Scope nat_scope.

(** [qubits b] (S_Den.v) lists the qubits of the leaf gates of [b]. *)

(** The reported support names exactly the qubits of the leaves; for composite blocks each once. *)
Theorem C02_support_is_leaf_qubits : forall set_iter, set_order set_iter ->
  forall b, exists l, bsup set_iter b = SLocal l /\ (forall q, In q l <-> In q (qubits b)) /\
    match b with BChain _ | BKron _ | BAdd _ => NoDup l | _ => True end.
Proof. exact bsup_spec. Qed.

(** n_qubits of chain, kron and add: one more than the largest leaf qubit (0 when there is none). *)
Theorem C02_nqubits_composite : forall set_iter, set_order set_iter ->
  forall b bs, (b = BChain bs \/ b = BKron bs \/ b = BAdd bs) ->
    (forall q, In q (qubits b) -> q < nqubits set_iter b) /\
    (qubits b <> [] -> exists q, In q (qubits b) /\ nqubits set_iter b = S q) /\
    (qubits b = [] -> nqubits set_iter b = 0).
Proof.
  intros si Hs b bs Hb.
  assert (E : nqubits si b = max_plus1 (locals (bsup si b))) by (destruct Hb as [-> | [-> | ->]]; reflexivity).
  rewrite E. destruct (max_plus1_spec (locals (bsup si b))) as (h1 & h2 & h3).
  pose proof (in_bsup si Hs b) as Hi. split; [|split].
  - intros q Hq. apply h1, Hi, Hq.
  - intro Hne. destruct h2 as (q & Hq & Eq).
    + intro Hn. apply Hne. destruct (qubits b) as [|a r]; [reflexivity|].
      exfalso. assert (In a (locals (bsup si b))) by (apply Hi; left; reflexivity). rewrite Hn in H. destruct H.
    + exists q. split; [apply Hi, Hq|exact Eq].
  - intro Hn. apply h3. destruct (locals (bsup si b)) as [|a r]; [reflexivity|].
    exfalso. assert (In a (qubits b)) by (apply Hi; left; reflexivity). rewrite Hn in H. destruct H.
Qed.

(** kron(...) succeeds exactly for at least one block with pairwise disjoint qubits. *)
Theorem C02_kron_accepts_exactly_disjoint : forall set_iter, set_order set_iter ->
  forall bs,
    (mk_kron set_iter bs = Some (BKron bs) <->
       (bs <> [] /\ ForallOrdPairs (fun a b => forall q, In q (qubits a) -> In q (qubits b) -> False) bs)) /\
    (mk_kron set_iter bs = Some (BKron bs) \/ mk_kron set_iter bs = None).
Proof. exact mk_kron_spec. Qed.

(** Finding: n_qubits is wrong for several leaf gates (T, TDagger, U, controlled rotations, Toffoli,
    MatrixBlock): it counts qubits, or returns 1, instead of one more than the largest index. *)
Theorem C02_nqubits_refuted : forall set_iter,
  (exists q e, let b := BPCtrl [0] (BRot RX_ q e) in In q (qubits b) /\ ~ (q < nqubits set_iter b)) /\
  (exists q, let b := BPrim PT q in In q (qubits b) /\ ~ (q < nqubits set_iter b)) /\
  (exists q, let b := BCtrl [0; 1] (BPrim PX q) in In q (qubits b) /\ ~ (q < nqubits set_iter b)) /\
  (exists q m, let b := BMat m [q] in In q (qubits b) /\ ~ (q < nqubits set_iter b)).
Proof.
  intro si. repeat split.
  - exists 2, (EVar "t"). simpl. lia.
  - exists 1. simpl. lia.
  - exists 3. simpl. lia.
  - exists 1, (fun _ _ => RtoC 0). simpl. lia.
Qed.

(** Non-vacuity: a set order exists, and a nested composite with repeated qubits. *)
Example C02_witness :
  set_order (nodup Nat.eq_dec) /\
  (let b := BChain [BKron [BPrim PX 3; BCtrl [0] (BPrim PX 1)]; BScale (BAdd [BPrim PZ 3; BPrim PY 0]) (EVar "c")] in
   bsup (nodup Nat.eq_dec) b = SLocal [1; 3; 0] /\ nqubits (nodup Nat.eq_dec) b = 4) /\
  mk_kron (nodup Nat.eq_dec) [BPrim PX 0; BCtrl [1] (BPrim PX 0)] = None.
Proof.
  split; [|split; [split|]; vm_compute; reflexivity].
  intro l. split; [apply NoDup_nodup|intro q; apply nodup_In].
Qed.

Print Assumptions C02_support_is_leaf_qubits.
Print Assumptions C02_nqubits_composite.
Print Assumptions C02_kron_accepts_exactly_disjoint.
Print Assumptions C02_nqubits_refuted.
