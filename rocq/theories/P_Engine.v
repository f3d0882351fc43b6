(** C83: what a backend wrapped in a differentiation engine computes. *)
From Coq Require Import String Reals List Arith Bool Lia Lra FunctionalExtensionality Permutation.
From Coquelicot Require Import Coquelicot.
From Coq Require Import List.
From Verif Require Import S_Ops L_Ops M_Block S_Den L_Den M_Tensor M_Transpile M_PSR M_Gradient S_Gradient L_GradientRules P_Gradient M_Engine.
Import ListNotations.

(** * Parameters that have a rule *)
(** Specification: circuits and observables in which every parameter belongs to a rotation, a controlled rotation, a U gate, the time of an
    evolution, or a scaled one-qubit operator. *)
Inductive keyed (eigvals : block -> list R) : block -> Prop :=
| Kprim p q : keyed eigvals (BPrim p q)
| Kproj k b qs : keyed eigvals (BProj k b qs)
| Kswap a b : keyed eigvals (BSwap a b)
| Kcswap c a b : keyed eigvals (BCSwap c a b)
| Kctrl cs p q : keyed eigvals (BCtrl cs (BPrim p q))
| Kmat m qs : keyed eigvals (BMat m qs)
| Krot r q u : keyed eigvals (BRot r q (EVar u))
| Ku q u1 u2 u3 : keyed eigvals (BU q (EVar u1) (EVar u2) (EVar u3))
| Kpctrl cs r q u : keyed eigvals (BPCtrl cs (BRot r q (EVar u)))
| Kscaled p q u : keyed eigvals (BScale (BPrim p q) (EVar u))
| Kconst b e : evars e = [] -> keyed eigvals b -> keyed eigvals (BScale b e)
| Kchain bs : (forall b, In b bs -> keyed eigvals b) -> keyed eigvals (BChain bs)
| Kkron bs : (forall b, In b bs -> keyed eigvals b) -> keyed eigvals (BKron bs)
| Kadd bs : (forall b, In b bs -> keyed eigvals b) -> keyed eigvals (BAdd bs)
| Kevo g u : eigvals g <> [] -> keyed eigvals g -> keyed eigvals (BEvo g (EVar u))
| Kevo_const g t : evars t = [] -> keyed eigvals g -> keyed eigvals (BEvo g t).

Lemma labels_const e : evars e = [] -> labels e = [].
Proof. destruct e; try reflexivity. discriminate. Qed.
Lemma keyed_entries eigvals b : keyed eigvals b -> forall u b', In (u, b') (entries b) -> forall rs, exists e, eigen_entry eigvals rs b' = Some (Some e).
Proof.
  induction 1 as [p q|k b qs|a b|c a b|cs p q|m qs|r q v|q u1 u2 u3|cs r q v|p q v|b e Ee _ IH|bs _ IH|bs _ IH|bs _ IH|g v Ne _ IH|g t Et _ IH]; intros u b' H rs; cbn [entries labels map app] in H; try contradiction.
  - destruct H as [E|[]]. injection E as <- <-. destruct r; eexists; reflexivity.
  - assert (E : b' = BU q (EVar u1) (EVar u2) (EVar u3)) by (destruct H as [E|[E|[E|[]]]]; congruence). subst b'. eexists. reflexivity.
  - destruct H as [E|[]]. injection E as <- <-. unfold eigen_entry. cbn [eigenvalues_generator]. unfold spectrum_mcrot, spectrum_mcphase. destruct r; try (destruct (repeat 0%R (2 ^ S (length cs) - 2)); eexists; reflexivity).
  - destruct H as [E|[]]. injection E as <- <-. destruct p; eexists; reflexivity.
  - rewrite (labels_const e Ee) in H. cbn [map app] in H. eapply IH. exact H.
  - apply in_flat_map in H as (x & Hx & H). eapply IH; eassumption.
  - apply in_flat_map in H as (x & Hx & H). eapply IH; eassumption.
  - apply in_flat_map in H as (x & Hx & H). eapply IH; eassumption.
  - apply in_app_iff in H as [H|H]; [eapply IH; exact H|]. destruct H as [E|[]]. injection E as <- <-. unfold eigen_entry. cbn [eigenvalues_generator]. destruct (eigvals g) as [|x l]; [congruence|]. destruct rs; eexists; reflexivity.
  - rewrite (labels_const t Et) in H. cbn [map] in H. rewrite app_nil_r in H. eapply IH. exact H.
Qed.
Lemma keyed_occ eigvals b : keyed eigvals b -> forall u, In u (occ b) -> exists b', In (u, b') (entries b).
Proof.
  induction 1 as [p q|k b qs|a b|c a b|cs p q|m qs|r q v|q u1 u2 u3|cs r q v|p q v|b e Ee _ IH|bs _ IH|bs _ IH|bs _ IH|g v Ne _ IH|g t Et _ IH]; intros u H; cbn [occ evars app] in H; try contradiction.
  - destruct H as [->|[]]. eexists. left. reflexivity.
  - eexists. cbn [entries labels map app]. destruct H as [->|[->|[->|[]]]]; simpl; auto.
  - destruct H as [->|[]]. eexists. left. reflexivity.
  - destruct H as [->|[]]. eexists. left. reflexivity.
  - rewrite Ee in H. cbn [app] in H. destruct (IH u H) as [b' Hb']. exists b'. cbn [entries]. apply in_app_iff. auto.
  - apply in_flat_map in H as (x & Hx & H). destruct (IH x Hx u H) as [b' Hb']. exists b'. cbn [entries]. apply in_flat_map. eauto.
  - apply in_flat_map in H as (x & Hx & H). destruct (IH x Hx u H) as [b' Hb']. exists b'. cbn [entries]. apply in_flat_map. eauto.
  - apply in_flat_map in H as (x & Hx & H). destruct (IH x Hx u H) as [b' Hb']. exists b'. cbn [entries]. apply in_flat_map. eauto.
  - apply in_app_iff in H as [H|H]; [destruct (IH u H) as [b' Hb']; exists b'; cbn [entries]; apply in_app_iff; auto|]. destruct H as [->|[]]. eexists. cbn [entries]. apply in_app_iff. right. left. reflexivity.
  - rewrite Et, app_nil_r in H. destruct (IH u H) as [b' Hb']. exists b'. cbn [entries]. apply in_app_iff. auto.
Qed.
Lemma entries_eigen eigvals rs (l : list (string * block)) : (forall u b', In (u, b') l -> exists e, eigen_entry eigvals rs b' = Some (Some e)) ->
  exists es, osequence (map (fun ub : string * block => option_map (fun e => (fst ub, e)) (eigen_entry eigvals rs (snd ub))) l) = Some es /\
    map fst (flat_map (fun ue => match snd ue with Some e => [(fst ue, e)] | None => [] end) es) = map fst l.
Proof.
  induction l as [|[u b'] l IH]; intros H; [exists []; split; reflexivity|]. destruct IH as (es & E & K); [intros v c Hc; eapply H; right; exact Hc|].
  destruct (H u b' (or_introl eq_refl)) as [e Ee]. exists ((u, Some e) :: es). cbn [map osequence fst snd]. rewrite Ee. cbn [option_map]. rewrite E. split; [reflexivity|].
  cbn [flat_map fst snd app map]. rewrite K. reflexivity.
Qed.
Lemma keyed_eigen eigvals b rs : keyed eigvals b -> exists eigs, uuid_to_eigen eigvals rs b = Some eigs /\ forall k, In k (map fst eigs) <-> In k (occ b).
Proof.
  intros K. unfold uuid_to_eigen. destruct (entries_eigen eigvals rs (uuid_to_block b [])) as (es & E & F).
  - intros u b' H. rewrite uuid_to_block_entries in H. apply in_dputs in H as [H|[]]. eapply keyed_entries; eassumption.
  - rewrite E. eexists. split; [reflexivity|]. intros k. rewrite F, uuid_to_block_entries, keys_dputs. cbn [map In]. split.
    + intros [H|[]]. apply in_map_iff in H as ([u b'] & <- & H). eapply in_entries_occ, H.
    + intros H. left. destruct (keyed_occ eigvals b K k H) as [b' Hb']. apply (in_map fst) in Hb'. exact Hb'.
Qed.
Lemma keyed_rules eigvals solve arg b obs : keyed eigvals b -> (forall o, In o obs -> keyed eigvals o) ->
  exists rules, construct_rules eigvals solve arg b obs = Some rules /\ forall k, In k (map fst rules) <-> In k (occ b) \/ exists o, In o obs /\ In k (occ o).
Proof.
  intros K Ko. unfold construct_rules. destruct (keyed_eigen eigvals b true K) as (eigs & E & F). rewrite E. cbn [M_Tensor.obind].
  assert (G : exists ls, osequence (map (uuid_to_eigen eigvals false) obs) = Some ls /\ forall k, In k (map fst (concat ls)) <-> exists o, In o obs /\ In k (occ o)).
  { clear - Ko. induction obs as [|o obs IH]; [exists []; split; [reflexivity|intros k; split; [intros []|intros (o & [] & _)]]|].
    destruct IH as (ls & El & Fl); [intros x Hx; apply Ko; right; exact Hx|]. destruct (keyed_eigen eigvals o false (Ko o (or_introl eq_refl))) as (e & Ee & Fe).
    exists (e :: ls). cbn [map osequence]. rewrite Ee, El. split; [reflexivity|]. intros k. cbn [concat]. rewrite map_app, in_app_iff, Fe, Fl. split.
    - intros [H|(x & Hx & H)]; [exists o; split; [left; reflexivity|exact H]|exists x; split; [right; exact Hx|exact H]].
    - intros (x & [->|Hx] & H); [left; exact H|right; exists x; auto]. }
  destruct G as (ls & El & Fl). rewrite El. cbn [M_Tensor.obind]. rewrite fold_consts. eexists. split; [reflexivity|]. intros k. rewrite keys_dputs, keys_dputs, !map_map. cbn [map In fst]. change (map (fun x : string * (list R * R) => fst x)) with (map (@fst string (list R * R))). rewrite Fl, F. tauto.
Qed.

Lemma restrict_ok Val (d : Dict Val) keys : (forall k, In k keys -> dget Val d k <> None) ->
  exists d', restrict Val d keys = Some d' /\ (forall k, In k keys -> dget Val d' k = dget Val d k) /\ forall k, ~ In k keys -> dget Val d' k = None.
Proof.
  unfold restrict. induction keys as [|k keys IH]; intros H; [exists []; split; [reflexivity|]; split; [intros k []|reflexivity]|].
  destruct IH as (d' & E & F & N); [intros x Hx; apply H; right; exact Hx|]. destruct (dget Val d k) as [v|] eqn:Ev; [|exfalso; exact (H k (or_introl eq_refl) Ev)].
  exists ((k, v) :: d'). cbn [map osequence]. rewrite Ev. cbn [option_map]. rewrite E. split; [reflexivity|]. split.
  - intros x Hx. cbn [dget]. destruct (String.eqb_spec k x) as [->|Q]; [symmetry; exact Ev|]. destruct Hx as [Hx|Hx]; [congruence|]. apply F. exact Hx.
  - intros x Hx. cbn [dget]. destruct (String.eqb_spec k x) as [->|Q]; [exfalso; apply Hx; left; reflexivity|]. apply N. intros I. apply Hx. right. exact I.
Qed.

Section Engine.
  Variables (Backend Circ Obs ACirc AObs Val State Meas Noise Mit Endian : Type).
  Variable Big : Endian.
  Variable default_backend : Backend.
  Variables (c_original : Circ -> ACirc) (o_original : Obs -> AObs) (c_block : Circ -> block) (o_block : Obs -> block).
  Variable expectation_fn : Backend -> Circ -> list Obs -> Dict Val -> option State -> option Noise -> option Mit -> Endian -> option table.
  Variable measure_fn : Meas -> ACirc -> list AObs -> Dict Val -> option State -> Backend -> option Noise -> Endian -> option table.
  Variable adjoint_fn : Circ -> State -> Obs -> Dict Val -> option (list R).
  Variable init_state : Circ -> nat -> State.
  Variable prepare_state : Circ -> State -> option State.
  Variable state_batch : State -> nat.
  Variable infer_batchsize : Dict Val -> nat.
  Variable eigvals : block -> list R.
  Variable linalg_solve : list (list R) -> list R -> option (list R).
  Variable shift_prefac : option R.
  Let torch := torch_expectation Backend Circ Obs ACirc AObs Val State Meas Noise Mit Endian default_backend c_original o_original c_block o_block
    expectation_fn measure_fn adjoint_fn init_state prepare_state state_batch infer_batchsize eigvals linalg_solve shift_prefac.
  Let jax := jax_expectation Backend Circ Obs Val State Meas Noise Mit Endian Big c_block expectation_fn eigvals.
  Let settings := settings State Meas Noise Mit Endian.
  Let observables := as_list Obs.

  (** The parameters that occur in the circuit or in an observable. *)
  Definition occurs (c : Circ) (os : list Obs) (k : string) : Prop := In k (occ (c_block c)) \/ exists o, In o os /\ In k (occ (o_block o)).
  (** A computation from a dictionary looks only at the parameters that occur. *)
  Definition reads_only {X} (c : Circ) (os : list Obs) (f : Dict Val -> X) : Prop :=
    forall d d', (forall k, occurs c os k -> dget Val d k = dget Val d' k) -> f d = f d'.

  Lemma gpsr_dict c os d : keyed eigvals (c_block c) -> (forall o, In o os -> keyed eigvals (o_block o)) ->
    (forall k, occurs c os k -> dget Val d k <> None) ->
    exists rules d', construct_rules eigvals linalg_solve shift_prefac (c_block c) (map o_block os) = Some rules /\
      restrict Val d (map fst rules) = Some d' /\ (forall k, occurs c os k -> dget Val d k = dget Val d' k) /\ (forall k, ~ occurs c os k -> dget Val d' k = None).
  Proof.
    intros Kc Ko Hd. destruct (keyed_rules eigvals linalg_solve shift_prefac (c_block c) (map o_block os) Kc) as (rules & E & F).
    { intros x Hx. apply in_map_iff in Hx as (o & <- & Ho). apply Ko. exact Ho. }
    assert (F' : forall k, In k (map fst rules) <-> occurs c os k).
    { intros k. rewrite F. unfold occurs. split; (intros [H|(o & Ho & H)]; [left; exact H|right]).
      - apply in_map_iff in Ho as (o' & <- & Ho'). eauto.
      - exists (o_block o). split; [apply in_map; exact Ho|exact H]. }
    destruct (restrict_ok Val d (map fst rules)) as (d' & Er & G & N); [intros k Hk; apply Hd, F'; exact Hk|].
    exists rules, d'. split; [exact E|]. split; [exact Er|]. split; [intros k Hk; symmetry; apply G, F'; exact Hk|]. intros k Hk. apply N. intros I. apply Hk, F', I.
  Qed.

  (** C83.  Without a measurement protocol, automatic differentiation and the parameter-shift mode of the torch engine give the value the backend
      itself gives with the same circuit, observables, parameters, state, noise, mitigation and endianness. *)
  Theorem C83_value : forall be c o d (s : settings), measurement _ _ _ _ _ s = None ->
    keyed eigvals (c_block c) -> (forall x, In x (observables o) -> keyed eigvals (o_block x)) ->
    (forall k, occurs c (observables o) k -> dget Val d k <> None) ->
    reads_only c (observables o) (fun d' => expectation_fn be c (observables o) d' (state _ _ _ _ _ s) (noise _ _ _ _ _ s) (mitigation _ _ _ _ _ s) (endianness _ _ _ _ _ s)) ->
    torch AD be c o d s = expectation_fn be c (observables o) d (state _ _ _ _ _ s) (noise _ _ _ _ _ s) (mitigation _ _ _ _ _ s) (endianness _ _ _ _ _ s) /\
    torch GPSR be c o d s = torch AD be c o d s.
  Proof.
    intros be c o d s Hm Kc Ko Hd R. unfold torch, torch_expectation, ad, psr. fold (observables o). rewrite Hm. split; [reflexivity|].
    destruct (gpsr_dict c (observables o) d Kc Ko Hd) as (rules & d' & E & Er & Eq & _). rewrite E. cbn [M_Tensor.obind]. rewrite Er. cbn [M_Tensor.obind]. symmetry. apply (R d d' Eq).
  Qed.
  (** With a measurement protocol the two modes agree when the wrapped backend is the protocols' default one. *)
  Theorem C83_measured : forall c o d (s : settings) m, measurement _ _ _ _ _ s = Some m ->
    keyed eigvals (c_block c) -> (forall x, In x (observables o) -> keyed eigvals (o_block x)) ->
    (forall k, occurs c (observables o) k -> dget Val d k <> None) ->
    (forall be, reads_only c (observables o) (fun d' => measure_fn m (c_original c) (map o_original (observables o)) d' (state _ _ _ _ _ s) be (noise _ _ _ _ _ s) (endianness _ _ _ _ _ s))) ->
    (forall be, torch AD be c o d s = measure_fn m (c_original c) (map o_original (observables o)) d (state _ _ _ _ _ s) be (noise _ _ _ _ _ s) (endianness _ _ _ _ _ s)) /\
    torch GPSR default_backend c o d s = torch AD default_backend c o d s /\
    forall be, torch GPSR be c o d s = torch GPSR default_backend c o d s.
  Proof.
    intros c o d s m Hm Kc Ko Hd R. unfold torch, torch_expectation, ad, psr. fold (observables o). rewrite Hm. split; [reflexivity|].
    destruct (gpsr_dict c (observables o) d Kc Ko Hd) as (rules & d' & E & Er & Eq & _). rewrite E. cbn [M_Tensor.obind]. rewrite Er. cbn [M_Tensor.obind]. split; [symmetry; apply (R default_backend d d' Eq)|reflexivity].
  Qed.
  (** One observable is the list with that observable. *)
  Theorem C83_single : forall m be c o d (s : settings),
    torch m be c (OneObs _ o) d s = torch m be c (ObsList _ [o]) d s /\ jax m be c (OneObs _ o) d s = jax m be c (ObsList _ [o]) d s.
  Proof. intros. split; reflexivity. Qed.
  (** On the jax engine every mode gives the same value when the circuit's parameters have rules and values. *)
  Theorem C83_jax : forall m be c o d (s : settings), keyed eigvals (c_block c) -> (forall k, In k (occ (c_block c)) -> dget Val d k <> None) ->
    jax m be c o d s = expectation_fn be c (observables o) d (state _ _ _ _ _ s) None None Big.
  Proof.
    intros m be c o d s K Hd. unfold jax, jax_expectation. destruct m; [reflexivity| | |];
    (unfold jax_psr_value; destruct (keyed_eigen eigvals (c_block c) false K) as (eigs & E & F); rewrite E; cbn [M_Tensor.obind];
     destruct (restrict_ok Val d (map fst eigs)) as (d' & Er & _); [intros k Hk; apply Hd, F, Hk|]; rewrite Er; reflexivity).
  Qed.

  (** * The adjoint mode *)
  (** [value o i] is the exact expectation value of [o] for element [i] of a batch of [n]: the backend computes the table of all of them and
      the adjoint expectation the column of each. *)
  Definition exact_values (be : Backend) (c : Circ) (os : list Obs) (d : Dict Val) (st : option State) (n : nat) (value : Obs -> nat -> R) : Prop :=
    expectation_fn be c os d st None None Big = Some (map (fun i => map (fun o => value o i) os) (seq 0 n)) /\
    exists st', (match st with None => Some (init_state c (infer_batchsize d)) | Some x => prepare_state c x end) = Some st' /\
      max (infer_batchsize d) (state_batch st') = n /\ forall o, In o os -> adjoint_fn c st' o d = Some (map (value o) (seq 0 n)).
  Definition plain (st : option State) : settings := {| state := st; measurement := None; noise := None; mitigation := None; endianness := Big |}.

  Lemma adjoint_spec be c os d st n value : os <> [] -> exact_values be c os d st n value ->
    torch ADJOINT be c (ObsList _ os) d (plain st) = Some (flat_map (fun o => map (fun i => [value o i]) (seq 0 n)) os).
  Proof.
    intros Ne (_ & st' & E & B & A). unfold torch, torch_expectation, adjoint, plain. cbn [as_list state]. rewrite E. cbn [M_Tensor.obind]. rewrite B.
    assert (G : osequence (map (fun o => M_Tensor.obind (adjoint_fn c st' o d) (fun l => if Nat.eqb (length l) n then Some (map (fun x => [x]) l) else None)) os)
              = Some (map (fun o => map (fun i => [value o i]) (seq 0 n)) os)).
    { clear Ne E. induction os as [|o os IH]; [reflexivity|]. cbn [map osequence]. rewrite (A o (or_introl eq_refl)). cbn [M_Tensor.obind]. rewrite map_length, seq_length, Nat.eqb_refl, map_map.
      rewrite IH by (intros x Hx; apply A; right; exact Hx). reflexivity. }
    rewrite G. cbn [M_Tensor.obind]. destruct os as [|o os]; [congruence|]. cbn [map]. rewrite flat_map_concat_map. reflexivity.
  Qed.
  Lemma column_stack (value : Obs -> nat -> R) n os : forall i j, (i < n)%nat -> (j < length os)%nat -> forall o0,
    nth (j * n + i) (flat_map (fun o => map (fun i => [value o i]) (seq 0 n)) os) [] = [value (nth j os o0) i].
  Proof.
    induction os as [|o os IH]; intros i j Hi Hj o0; [cbn in Hj; lia|]. cbn [flat_map]. destruct j as [|j].
    - rewrite app_nth1 by (rewrite map_length, seq_length; lia). cbn [Nat.mul Nat.add nth]. rewrite (nth_indep _ [] ((fun k => [value o k]) 0%nat)) by (rewrite map_length, seq_length; lia).
      rewrite (map_nth (fun k => [value o k])), seq_nth by lia. reflexivity.
    - rewrite app_nth2 by (rewrite map_length, seq_length; lia). rewrite map_length, seq_length. replace (S j * n + i - n)%nat with (j * n + i)%nat by lia. cbn [nth]. apply IH; [exact Hi|cbn in Hj; lia].
  Qed.
  (** One observable: the adjoint mode gives the table of automatic differentiation. *)
  Theorem C83_adjoint : forall be c o d st n value, exact_values be c [o] d st n value ->
    torch ADJOINT be c (OneObs _ o) d (plain st) = torch AD be c (OneObs _ o) d (plain st).
  Proof.
    intros be c o d st n value H. rewrite (proj1 (C83_single ADJOINT be c o d (plain st))), (proj1 (C83_single AD be c o d (plain st))). rewrite (adjoint_spec be c [o] d st n value ltac:(discriminate) H).
    destruct H as (E & _). unfold torch, torch_expectation, ad, plain. cbn [as_list measurement state noise mitigation endianness]. rewrite E. cbn [flat_map map]. rewrite app_nil_r. reflexivity.
  Qed.
  (** Several observables: the same numbers, but stacked below each other in one column. *)
  Theorem C83_adjoint_layout : forall be c os d st n value, os <> [] -> exact_values be c os d st n value ->
    exists t t', torch AD be c (ObsList _ os) d (plain st) = Some t /\ torch ADJOINT be c (ObsList _ os) d (plain st) = Some t' /\
      length t = n /\ length t' = (length os * n)%nat /\
      forall i j, (i < n)%nat -> (j < length os)%nat -> nth (j * n + i) t' [] = [nth j (nth i t []) 0%R].
  Proof.
    intros be c os d st n value Ne H. eexists. eexists. split; [|split; [exact (adjoint_spec be c os d st n value Ne H)|]].
    - destruct H as (E & _). unfold torch, torch_expectation, ad, plain. cbn [as_list measurement state noise mitigation endianness]. exact E.
    - split; [rewrite map_length, seq_length; reflexivity|]. split.
      + clear. induction os as [|o os IH]; [reflexivity|]. cbn [flat_map length Nat.mul]. rewrite app_length, map_length, seq_length, IH. reflexivity.
      + intros i j Hi Hj. destruct os as [|o0 os']; [congruence|]. set (os := o0 :: os') in *. rewrite (column_stack value n os i j Hi Hj o0). f_equal.
        rewrite (nth_indep _ [] ((fun i => map (fun o => value o i) os) 0%nat)) by (rewrite map_length, seq_length; lia).
        rewrite (map_nth (fun i => map (fun o => value o i) os)), seq_nth by lia. rewrite (nth_indep _ 0%R ((fun o => value o (0 + i)%nat) o0)) by (rewrite map_length; lia).
        rewrite (map_nth (fun o => value o (0 + i)%nat)). reflexivity.
  Qed.
  (** Finding: so with two observables or more the result of the adjoint mode does not have the documented shape (batch size, number of observables). *)
  Theorem C83_adjoint_shape_refuted : forall be c os d st n value, (2 <= length os)%nat -> (0 < n)%nat -> exact_values be c os d st n value ->
    torch ADJOINT be c (ObsList _ os) d (plain st) <> torch AD be c (ObsList _ os) d (plain st).
  Proof.
    intros be c os d st n value L Hn H. destruct (C83_adjoint_layout be c os d st n value) as (t & t' & E & E' & Lt & Lt' & _); [intros ->; cbn in L; lia|exact H|].
    rewrite E, E'. intros Q. assert (X : t' = t) by congruence. subst t'. nia.
  Qed.
  (** Finding: the adjoint mode computes the same whatever measurement protocol, noise, mitigation and endianness are asked for ... *)
  Theorem C83_adjoint_settings_refuted : forall be be' c o d (s s' : settings), state _ _ _ _ _ s = state _ _ _ _ _ s' -> torch ADJOINT be c o d s = torch ADJOINT be' c o d s'.
  Proof. intros be be' c o d s s' E. unfold torch, torch_expectation, adjoint. rewrite E. reflexivity. Qed.
  (** Finding: ... and so does the jax engine in every mode. *)
  Theorem C83_jax_settings_refuted : forall m be c o d (s s' : settings), state _ _ _ _ _ s = state _ _ _ _ _ s' -> jax m be c o d s = jax m be c o d s'.
  Proof. intros m be c o d s s' E. unfold jax, jax_expectation, jax_psr_value. rewrite E. reflexivity. Qed.
  (** Another mode is an error with torch, and the parameter-shift rule with jax. *)
  Theorem C83_modes : forall be c o d (s : settings), torch OtherMode be c o d s = None /\ jax OtherMode be c o d s = jax GPSR be c o d s /\ jax ADJOINT be c o d s = jax GPSR be c o d s.
  Proof. intros. repeat split; reflexivity. Qed.
End Engine.

(** * A small engine: two backends, values are numbers, a measurement protocol that reports which backend ran *)
Definition ex_expectation (be : bool) (c : block) (os : list block) (d : Dict R) (st : option nat) (nz : option unit) (mit : option unit) (e : bool) : option table :=
  match osequence (map (dget R d) (nodup string_dec (occ c ++ flat_map occ os))) with
  | Some vs => Some (map (fun i => map (fun o => (rsum vs + INR (length (occ o)) + INR i)%R) os) (seq 0 2))
  | None => None
  end.
Definition ex_measure (m : unit) (c : block) (os : list block) (d : Dict R) (st : option nat) (be : bool) (nz : option unit) (e : bool) : option table :=
  Some [[if be then 1%R else 0%R]].
Definition ex_adjoint (c : block) (st : nat) (o : block) (d : Dict R) : option (list R) :=
  match osequence (map (dget R d) (nodup string_dec (occ c ++ occ o))) with
  | Some vs => Some (map (fun i => (rsum vs + INR (length (occ o)) + INR i)%R) (seq 0 2))
  | None => None
  end.
Definition ex_torch (m : mode) := torch_expectation bool block block block block R nat unit unit unit bool false (fun b => b) (fun b => b) (fun b => b) (fun b => b)
  ex_expectation ex_measure ex_adjoint (fun _ _ => 2%nat) (fun _ st => Some st) (fun st => st) (fun _ => 1%nat) (fun _ => [1%R]) (fun _ _ => None) None m.
Definition ex_plain := plain nat unit unit unit bool true.
Definition ex_circuit : block := BChain [BRot RX_ 0 (EVar "x"); BCtrl [0%nat] (BPrim PX 1); BEvo (BPrim PZ 0) (EVar "t")].
Definition ex_dict : Dict R := [("x", 1%R); ("y", 5%R); ("t", 2%R)]%string.

Lemma ex_reads be c os st nz mit e : reads_only block block R (fun b => b) (fun b => b) c os (fun d => ex_expectation be c os d st nz mit e).
Proof.
  intros d d' H. unfold ex_expectation. replace (map (dget R d') (nodup string_dec (occ c ++ flat_map occ os))) with (map (dget R d) (nodup string_dec (occ c ++ flat_map occ os))); [reflexivity|].
  apply map_ext_in. intros k Hk. apply nodup_In, in_app_iff in Hk. apply H. destruct Hk as [Hk|Hk]; [left; exact Hk|right]. apply in_flat_map in Hk. exact Hk.
Qed.
Example C83_value_ex : keyed (fun _ => [1%R]) ex_circuit /\ keyed (fun _ => [1%R]) (BScale (BPrim PZ 0) (EVar "y")) /\
  (forall k, occurs block block (fun b => b) (fun b => b) ex_circuit [BScale (BPrim PZ 0) (EVar "y")] k -> dget R ex_dict k <> None) /\
  ex_torch GPSR true ex_circuit (OneObs _ (BScale (BPrim PZ 0) (EVar "y"))) ex_dict (ex_plain None) = Some [[9%R]; [10%R]].
Proof.
  assert (K1 : keyed (fun _ => [1%R]) ex_circuit) by (apply Kchain; intros b [<-|[<-|[<-|[]]]]; [constructor|constructor|apply Kevo; [discriminate|constructor]]).
  assert (K2 : keyed (fun _ => [1%R]) (BScale (BPrim PZ 0) (EVar "y"))) by constructor.
  assert (D : forall k, occurs block block (fun b => b) (fun b => b) ex_circuit [BScale (BPrim PZ 0) (EVar "y")] k -> dget R ex_dict k <> None).
  { intros k [H|(o & [<-|[]] & H)]; cbn in H; intuition subst; discriminate. }
  split; [exact K1|]. split; [exact K2|]. split; [exact D|]. unfold ex_torch.
  rewrite (proj2 (C83_value bool block block block block R nat unit unit unit bool false (fun b => b) (fun b => b) (fun b => b) (fun b => b) ex_expectation ex_measure ex_adjoint (fun _ _ => 2%nat) (fun _ st => Some st) (fun st => st) (fun _ => 1%nat) (fun _ => [1%R]) (fun _ _ => None) None true ex_circuit (OneObs _ (BScale (BPrim PZ 0) (EVar "y"))) ex_dict (ex_plain None) eq_refl K1 ltac:(intros x [<-|[]]; exact K2) D (ex_reads _ _ _ _ _ _ _))).
  unfold torch_expectation, ad, ex_plain, plain. cbn [measurement]. unfold ex_expectation. cbn. do 2 f_equal; [f_equal; lra|]. do 2 f_equal. lra.
Qed.
Example C83_adjoint_ex : exact_values bool block block R nat unit unit bool true ex_expectation ex_adjoint (fun _ _ => 2%nat) (fun _ st => Some st) (fun st => st) (fun _ => 1%nat)
  true ex_circuit [BPrim PZ 0; BPrim PX 1] ex_dict None 2 (fun o i => (3 + INR (length (occ o)) + INR i)%R).
Proof.
  split; [unfold ex_expectation; cbn; repeat f_equal; lra|]. exists 2%nat. split; [reflexivity|]. split; [reflexivity|]. intros o [<-|[<-|[]]]; unfold ex_adjoint; cbn; repeat f_equal; lra.
Qed.
(** Finding: with a measurement protocol, the parameter-shift mode runs the protocol on the default backend, not on the wrapped one; automatic
    differentiation runs it on the wrapped one. *)
Theorem C83_measured_backend_refuted : exists c o d s t t', ex_torch AD true c o d s = Some t /\ ex_torch GPSR true c o d s = Some t' /\ t <> t'.
Proof.
  exists (BRot RX_ 0 (EVar "x")), (OneObs _ (BPrim PZ 0)), ex_dict, {| state := None; measurement := Some tt; noise := None; mitigation := None; endianness := true |}, [[1%R]], [[0%R]].
  split; [reflexivity|]. split; [reflexivity|]. intros E. injection E as E. lra.
Qed.
(** Finding: a parameter without a rule (here the factor of a sum in a generator) is left out of the dictionary the backend gets in the
    parameter-shift mode, so that a circuit that runs with automatic differentiation is an error. *)
Theorem C83_missing_parameter_refuted : exists c o d s t, ex_torch AD true c o d s = Some t /\ ex_torch GPSR true c o d s = None.
Proof.
  exists (BEvo (BScale (BAdd [BPrim PX 0]) (EVar "x")) (EVar "t")), (OneObs _ (BPrim PZ 0)), ex_dict, (ex_plain None). eexists. split; [reflexivity|]. reflexivity.
Qed.

(** * Sampling, running and converting *)
(** Whatever the engine and the mode, samples and states are those of the wrapped backend with the same arguments. *)
Theorem C83_sample_run : forall Backend Circ Val State Meas Noise Mit Endian Counts sample_fn run_fn e m (be : Backend) (c : Circ) (d : Dict Val) (n : nat) (st : option State) (ms : option Meas) (nz : option Noise) (mit : option Mit) (en : Endian),
  engine_sample Backend Circ Val State Meas Noise Mit Endian Counts sample_fn e m be c d n {| state := st; measurement := ms; noise := nz; mitigation := mit; endianness := en |} = sample_fn be c d n st nz mit en /\
  engine_run Backend Circ Val State Meas Noise Mit Endian run_fn e m be c d {| state := st; measurement := ms; noise := nz; mitigation := mit; endianness := en |} = run_fn be c d st en.
Proof. intros. split; reflexivity. Qed.
(** [circuit] and [observable] refuse exactly what the mode cannot differentiate, besides what the backend refuses. *)
Theorem C83_guards : forall Backend Circ Obs ACirc AObs (be_circuit : Backend -> ACirc -> option Circ) (be_observable : Backend -> AObs -> nat -> option Obs) non_primitive is_parametric m be c o n,
  (engine_circuit Backend Circ ACirc be_circuit non_primitive m be c <> None <-> be_circuit be c <> None /\ (m = GPSR -> non_primitive c = false)) /\
  (engine_observable Backend Obs AObs be_observable is_parametric m be o n <> None <-> be_observable be o n <> None /\ (m <> AD -> is_parametric o = false)).
Proof.
  intros. unfold engine_circuit, engine_observable. split.
  - destruct m; try (split; [intros H; split; [exact H|discriminate]|intros [H _]; exact H]). destruct (non_primitive c); split; try congruence; intros H; [|split; [exact H|reflexivity]|apply H]. destruct H as [_ H]. specialize (H eq_refl). discriminate.
  - destruct m; [split; [intros H; split; [exact H|congruence]|intros [H _]; exact H]| | |];
    (destruct (is_parametric o); split; [congruence|intros [_ H]; specialize (H ltac:(discriminate)); discriminate|intros H; split; [exact H|reflexivity]|intros [H _]; exact H]).
Qed.
(** [convert] returns the converted circuit and, in order, every observable converted for the qubits of the circuit and of the observable. *)
Theorem C83_convert : forall Backend Circ Obs ACirc AObs be_circuit be_observable c_qubits o_qubits is_hamiltonian m (be : Backend) (c : ACirc) (os : list AObs) (cc : Circ) (cos : list Obs),
  engine_convert Backend Circ Obs ACirc AObs be_circuit be_observable c_qubits o_qubits is_hamiltonian m be c os = Some (cc, cos) <->
  be_circuit be c = Some cc /\
  Forall2 (fun o o' => is_hamiltonian o = true /\ exists n, (c_qubits c <= n)%nat /\ (o_qubits o <= n)%nat /\ (n = c_qubits c \/ n = o_qubits o) /\ be_observable be o n = Some o') os cos.
Proof.
  intros. unfold engine_convert, be_convert.
  assert (G : forall cos, osequence (map (fun o => if is_hamiltonian o then be_observable be o (max (c_qubits c) (o_qubits o)) else None) os) = Some cos <->
    Forall2 (fun o o' => is_hamiltonian o = true /\ exists n, (c_qubits c <= n)%nat /\ (o_qubits o <= n)%nat /\ (n = c_qubits c \/ n = o_qubits o) /\ be_observable be o n = Some o') os cos).
  { clear cos. induction os as [|o os IH]; intros cos; cbn [map osequence]; [split; [intros E; injection E as <-; constructor|intros F; inversion F; reflexivity]|]. split.
    - intros E. destruct (is_hamiltonian o) eqn:Eh; [|discriminate E]. destruct (be_observable be o (max (c_qubits c) (o_qubits o))) as [o'|] eqn:Eo; [|discriminate E]. cbn in E.
      destruct (osequence _) as [r|] eqn:Er; [|discriminate E]. cbn in E. injection E as <-. constructor; [|apply IH; reflexivity]. split; [exact Eh|]. exists (max (c_qubits c) (o_qubits o)). repeat split; try lia. exact Eo.
    - intros F. inversion F as [|? o' ? cos' (Eh & n & H1 & H2 & H3 & Eo) F' E1 E2]; subst. rewrite Eh. replace (max (c_qubits c) (o_qubits o)) with n by lia. rewrite Eo. cbn. apply IH in F'. rewrite F'. reflexivity. }
  destruct (be_circuit be c) as [cc'|]; cbn [M_Tensor.obind]; [|split; [discriminate|intros [E _]; discriminate E]].
  specialize (G cos). destruct (osequence _) as [r|]; cbn [M_Tensor.obind].
  - split; [intros E; assert (X : cc' = cc) by congruence; assert (Y : r = cos) by congruence; subst; split; [reflexivity|apply G; reflexivity]|intros [E F]; apply G in F; congruence].
  - split; [discriminate|intros [_ F]; apply G in F; discriminate F].
Qed.
(** Finding: [convert], which QuantumModel and the execution functions use, has none of these checks: what it accepts does not depend on the mode, and
    it accepts circuits and observables that [circuit] and [observable] refuse. *)
Theorem C83_convert_refuted :
  (forall Backend Circ Obs ACirc AObs be_circuit be_observable c_qubits o_qubits is_hamiltonian m m' (be : Backend) (c : ACirc) (os : list AObs),
     engine_convert Backend Circ Obs ACirc AObs be_circuit be_observable c_qubits o_qubits is_hamiltonian m be c os =
     engine_convert Backend Circ Obs ACirc AObs be_circuit be_observable c_qubits o_qubits is_hamiltonian m' be c os) /\
  exists (be_circuit : unit -> nat -> option nat) (be_observable : unit -> nat -> nat -> option nat) non_primitive is_parametric r,
    engine_circuit unit nat nat be_circuit non_primitive GPSR tt 3%nat = None /\ engine_observable unit nat nat be_observable is_parametric GPSR tt 2%nat 3%nat = None /\
    engine_convert unit nat nat nat nat be_circuit be_observable (fun c => c) (fun o => o) (fun _ => true) GPSR tt 3%nat [2%nat] = Some r.
Proof.
  split; [reflexivity|]. exists (fun _ c => Some c), (fun _ o _ => Some o), (fun _ => true), (fun _ => true), (3%nat, [2%nat]). repeat split.
Qed.

Print Assumptions C83_value.
Print Assumptions C83_measured.
Print Assumptions C83_jax.
Print Assumptions C83_adjoint.
Print Assumptions C83_adjoint_layout.
Print Assumptions C83_adjoint_shape_refuted.
Print Assumptions C83_measured_backend_refuted.
Print Assumptions C83_missing_parameter_refuted.
Print Assumptions C83_guards.
Print Assumptions C83_convert.
Print Assumptions C83_convert_refuted.
