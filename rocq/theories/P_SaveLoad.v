(** C62: saving and loading a model. *)
From Coq Require Import String Ascii List Arith Bool Lia Permutation.
From Verif Require Import M_Trainable P_Trainable M_Embedding P_Embedding M_Model P_Model M_Derivative M_Qnn P_Qnn M_SaveLoad.
Import ListNotations.
Open Scope string_scope.
Open Scope list_scope.

Section T.
  Variables X Noise V Mit Obs Args Res : Type.
  Notation tensor := (tensor X).
  Variable eqE : forall a b : pexpr, {a = b} + {a <> b}.
  Variable str_of hash_of : pexpr -> string.
  Variable fn : pexpr -> sdict tensor -> tensor.
  Variable reshape expand : tensor -> tensor.
  Variable one : tensor.
  Variable number : pexpr -> X.
  Variable initial : nat -> X.
  Variable is_time : nat -> bool.
  Variable ustr : nat -> string.
  Variable uniqE : list pexpr -> list pexpr.
  Variable uniqS : list (symbol tensor) -> list (symbol tensor).
  Variable parameter_dict : sdict tensor -> sdict tensor.
  Variable use_gate_params : bool.
  Variable b_run : inputs_t tensor -> Args -> Res.
  Variable b_sample : inputs_t tensor -> option Noise -> option Mit -> Args -> Res.
  Variable b_expectation : option Obs -> inputs_t tensor -> option (meas V) -> option Noise -> option Mit -> Args -> Res.
  Variable circuit_block : tblock.
  Variable observable : option (list tblock).
  Variables (measurement : option (meas V)) (mitigation : option Mit).
  Variable as_options : V -> sdict V.
  Hypothesis Hpd : forall d, Permutation (parameter_dict d) d.
  Notation model := (model X Noise).
  Notation call := (call X Noise (meas V) Mit Obs Args).
  Notation step := (step X Noise (meas V) Mit Obs Args Res eqE str_of hash_of fn reshape expand one number initial is_time ustr uniqE uniqS parameter_dict use_gate_params b_run b_sample b_expectation circuit_block observable measurement mitigation).
  Notation exec := (exec X Noise (meas V) Mit Obs Args Res eqE str_of hash_of fn reshape expand one number initial is_time ustr uniqE uniqS parameter_dict use_gate_params b_run b_sample b_expectation circuit_block observable measurement mitigation).
  Notation new_model := (new_model X Noise str_of hash_of number initial is_time ustr uniqE uniqS parameter_dict circuit_block).
  Notation new_qnn := (new_qnn X Noise str_of hash_of number initial is_time ustr uniqE uniqS parameter_dict circuit_block).
  Notation from_dict := (from_dict X Noise V str_of hash_of number initial is_time ustr uniqE uniqS parameter_dict circuit_block as_options).
  Notation qnn_from_dict := (qnn_from_dict X Noise V str_of hash_of number initial is_time ustr uniqE uniqS parameter_dict circuit_block as_options).
  Notation to_dict := (to_dict X Noise V). Notation qnn_to_dict := (qnn_to_dict X Noise V).
  Notation load := (load_params_from_dict X Noise V).
  Notation m_heap := (m_heap X Noise). Notation m_params := (m_params X Noise). Notation m_noise := (m_noise X Noise). Notation m_inputs := (m_inputs X Noise).
  Notation s_params := (s_params X Noise V).

  Lemma absent (d : sdict tensor) k : ~ In k (map fst d) -> get d k = None.
  Proof. intros H. apply get_none, H. Qed.

  (** * load_params_from_dict *)
  (** The value after loading: the saved one if there is one, with the model's own requires_grad. *)
  Definition merged (old saved : option tensor) : option tensor := match old, saved with Some (_, g), Some (x, _) => Some (x, g) | o, _ => o end.
  Lemma get_copy p kv k : get (copy_into X p kv) k = if String.eqb (fst kv) k then merged (get p k) (Some (snd kv)) else get p k.
  Proof.
    unfold copy_into. destruct kv as [k' [x g']]. cbn [fst snd]. destruct (String.eqb_spec k' k) as [->|N].
    - destruct (get p k) as [[y g]|] eqn:E; cbn; [|exact E]. rewrite get_set, String.eqb_refl. reflexivity.
    - destruct (get p k') as [t|]; [|reflexivity]. rewrite get_set. destruct (String.eqb_spec k' k); [contradiction|reflexivity].
  Qed.
  Lemma keys_set (p : sdict tensor) k v : get p k <> None -> map fst (set p k v) = map fst p.
  Proof. induction p as [|[k' v'] p IH]; cbn; intros H; [congruence|]. destruct (String.eqb_spec k' k); [reflexivity|]. cbn. f_equal. apply IH, H. Qed.
  Lemma keys_copy p kv : map fst (copy_into X p kv) = map fst p.
  Proof. unfold copy_into. destruct (get p (fst kv)) eqn:E; [|reflexivity]. apply keys_set. congruence. Qed.
  Lemma get_copies d : NoDup (map fst d) -> forall p, (forall k, get (fold_left (copy_into X) d p) k = merged (get p k) (get d k)) /\ map fst (fold_left (copy_into X) d p) = map fst p.
  Proof.
    induction d as [|[k0 v0] d IH]; intros N p; cbn [fold_left get]; [split; [intros k; destruct (get p k) as [[? ?]|]; reflexivity|reflexivity]|].
    inversion N as [|? ? N1 N2]; subst. destruct (IH N2 (copy_into X p (k0, v0))) as [A B]. split; [|rewrite B; apply keys_copy].
    intros k. rewrite A, get_copy. cbn [fst snd]. destruct (String.eqb_spec k0 k) as [->|]; [|reflexivity].
    rewrite (absent d k); [|exact N1]. destruct (get p k) as [[y g]|]; cbn; [destruct v0; reflexivity|reflexivity].
  Qed.
  Lemma unmatched (p q : sdict tensor) : filter (fun kv => negb (has q (fst kv))) p = [] <-> forall k, get p k <> None -> get q k <> None.
  Proof.
    split.
    - intros H k Gk Gq. destruct (get p k) as [t|] eqn:E; [|congruence]. apply get_In in E.
      assert (I : In (k, t) (filter (fun kv => negb (has q (fst kv))) p)) by (apply filter_In; split; [exact E|unfold has; cbn; rewrite Gq; reflexivity]). rewrite H in I. destruct I.
    - intros H. destruct (filter (fun kv => negb (has q (fst kv))) p) as [|[k t] r] eqn:F; [reflexivity|]. exfalso.
      assert (I : In (k, t) (filter (fun kv => negb (has q (fst kv))) p)) by (rewrite F; left; reflexivity). apply filter_In in I as [I Q]. unfold has in Q. cbn in Q.
      apply (H k); [intros Z; apply get_none in Z; apply Z; apply in_map_iff; exists (k, t); auto|]. destruct (get q k); [discriminate|reflexivity].
  Qed.
  (** Strict loading needs the same keys; then, and without strict for any dictionary, every parameter that is both in the model and in the dictionary gets
      the saved value, and nothing else changes. *)
  Theorem C62_load_params : forall m d, NoDup (map fst (s_params d)) ->
    (load m d true <> None <-> forall k, get (m_params m) k = None <-> get (s_params d) k = None) /\
    (exists m', load m d false = Some m') /\
    (forall strict m', load m d strict = Some m' ->
       (forall k, get (m_params m') k = match get (m_params m) k, get (s_params d) k with Some (_, g), Some (x, _) => Some (x, g) | old, _ => old end) /\
       map fst (m_params m') = map fst (m_params m) /\ m_heap m' = m_heap m /\ m_noise m' = m_noise m /\ m_inputs m' = m_inputs m).
  Proof.
    intros m d N. unfold load_params_from_dict. split; [|split].
    - cbn [andb]. pose proof (unmatched (m_params m) (s_params d)) as U1. pose proof (unmatched (s_params d) (m_params m)) as U2.
      destruct (filter _ (m_params m)) as [|x r]; [destruct (filter _ (s_params d)) as [|y r']|]; cbn.
      + split; [|discriminate]. intros _ k. pose proof (proj1 U1 eq_refl k) as A. pose proof (proj1 U2 eq_refl k) as B. destruct (get (m_params m) k), (get (s_params d) k); split; intros Q; try congruence; exfalso; [apply A|apply B]; congruence.
      + split; [congruence|]. intros H. exfalso. assert (Q : y :: r' = []) by (apply U2; intros k A B; apply A, H, B). discriminate.
      + split; [congruence|]. intros H. exfalso. assert (Q : x :: r = []) by (apply U1; intros k A B; apply A, H, B). discriminate.
    - cbn [andb]. eexists. reflexivity.
    - intros strict m' H. destruct (andb _ _); [discriminate|]. injection H as <-. cbn. destruct (get_copies _ N (m_params m)) as [A B]. split; [intros k; rewrite A; destruct (get (m_params m) k) as [[? ?]|], (get (s_params d) k) as [[? ?]|]; reflexivity|]. split; [exact B|]. auto.
  Qed.

  (** * Training and resuming *)
  (** Keys and flags of the parameters. *)
  Definition shape (p : sdict tensor) : list (string * bool) := map (fun kv => (fst kv, requires_grad X (snd kv))) p.
  Lemma shape_assign p : forall vs, shape (assign X p vs) = shape p.
  Proof. induction p as [|[k [x g]] p IH]; intros vs; [reflexivity|]. cbn. destruct g; [destruct vs as [|v vs]; [reflexivity|]|]; cbn; f_equal; apply IH. Qed.
  Definition keeps (c : call) : Prop := match c with SetAsVariational _ _ _ _ _ _ _ | SetAsFixed _ _ _ _ _ _ _ => False | _ => True end.
  Lemma step_keeps m c : keeps c -> shape (m_params (fst (step m c))) = shape (m_params m) /\ m_heap (fst (step m c)) = m_heap m /\ m_inputs (fst (step m c)) = m_inputs m.
  Proof.
    destruct c as [v a|v n k a|v o me n k a|vs|f|l|l]; cbn [keeps]; intros K; try contradiction; try (repeat split; reflexivity).
    - cbn [M_Model.step]. unfold expectation. destruct o, observable; try (repeat split; reflexivity); match goal with |- context [match ?e with Some _ => _ | None => None end] => destruct e end; try (repeat split; reflexivity); destruct n; repeat split; reflexivity.
    - cbn [M_Model.step]. unfold reset_vparams. destruct (Nat.eqb _ _); cbn; [rewrite shape_assign|]; repeat split; reflexivity.
    - cbn. split; [|split; reflexivity]. unfold shape. rewrite map_map. apply map_ext. intros [k [x g]]. cbn. destruct g; reflexivity.
  Qed.
  Lemma exec_keeps cs : forall m, Forall keeps cs -> shape (m_params (exec m cs)) = shape (m_params m) /\ m_heap (exec m cs) = m_heap m /\ m_inputs (exec m cs) = m_inputs m.
  Proof.
    induction cs as [|c cs IH]; intros m K; [repeat split; reflexivity|]. inversion K as [|? ? K1 K2]; subst. change (exec m (c :: cs)) with (exec (fst (step m c)) cs).
    destruct (IH (fst (step m c)) K2) as (A & B & D), (step_keeps m c K1) as (A' & B' & D'). rewrite A, B, D. auto.
  Qed.
  Lemma params_nodup h noise : NoDup (map fst (m_params (new_model observable h noise))).
  Proof.
    cbn. apply (Permutation_NoDup (Permutation_map fst (Permutation_sym (Hpd _)))).
    unfold converted_params. assert (U : forall d e : sdict tensor, NoDup (map fst d) -> NoDup (map fst (update d e))). { intros d e. apply (nodup_update tensor (fun v => v) (fun v => v) one (fun v => v)). }
    assert (K : forall bs acc, NoDup (map fst acc) -> NoDup (map fst (fold_left (fun acc b => update acc (init_params X str_of hash_of number initial is_time ustr uniqE uniqS h b)) bs acc))).
    { induction bs as [|b bs IH]; intros acc N; [exact N|]. cbn. apply IH, U, N. }
    apply K. unfold init_params, initial_params. do 3 apply U. constructor.
  Qed.
  Lemma shape_keys p : map fst p = map fst (shape p).
  Proof. unfold shape. rewrite map_map. reflexivity. Qed.
  Lemma same_lists (p q : sdict tensor) : map fst p = map fst q -> NoDup (map fst p) -> (forall k, get p k = get q k) -> p = q.
  Proof.
    revert q. induction p as [|[k v] p IH]; intros [|[k' v'] q] K N G; try discriminate; [reflexivity|]. injection K as -> K. inversion N as [|? ? N1 N2]; subst.
    pose proof (G k') as Gk. cbn in Gk. rewrite String.eqb_refl in Gk. injection Gk as ->. f_equal. apply IH; [exact K|exact N2|]. intros j. specialize (G j). cbn in G. destruct (String.eqb_spec k' j) as [Ej|Nj]; [|exact G]. rewrite <- Ej.
    rewrite (absent p k' N1). rewrite (absent q k'); [reflexivity|]. rewrite <- K. exact N1.
  Qed.
  Lemma shape_get (p q : sdict tensor) : shape p = shape q -> forall k, match get p k, get q k with Some (_, g), Some (_, g') => g = g' | None, None => True | _, _ => False end.
  Proof.
    revert q. induction p as [|[k0 [x g]] p IH]; intros [|[k1 [y g1]] q] S; try discriminate; [intros k; exact I|]. unfold shape in S. cbn in S. injection S as -> -> S. intros k. cbn. destruct (String.eqb k1 k); [reflexivity|]. apply IH. exact S.
  Qed.
  (** A checkpoint: after any calls that make nothing variational or fixed, loading the saved parameters strictly into a new model for the same circuit and
      observables gives the trained model back, but for the noise, which is the new model's. *)
  Theorem C62_resume : forall h noise noise' cs, Forall keeps cs -> let m := exec (new_model observable h noise) cs in
    exists m', load (new_model observable h noise') (to_dict observable measurement true m) true = Some m' /\
      m_params m' = m_params m /\ m_heap m' = m_heap m /\ m_inputs m' = m_inputs m /\ m_noise m' = noise' /\ (m_noise m = noise' -> m' = m).
  Proof.
    intros h noise noise' cs K m. destruct (exec_keeps cs (new_model observable h noise) K) as (S & Hh & Hi). fold m in S, Hh, Hi.
    assert (N : NoDup (map fst (m_params m))) by (rewrite shape_keys, S, <- shape_keys; apply params_nodup).
    set (m0 := new_model observable h noise'). assert (P0 : m_params m0 = m_params (new_model observable h noise)) by reflexivity.
    assert (Sg : forall k, match get (m_params m0) k, get (m_params m) k with Some (_, g), Some (_, g') => g = g' | None, None => True | _, _ => False end) by (intros k; rewrite P0; apply shape_get; symmetry; exact S).
    destruct (C62_load_params m0 (to_dict observable measurement true m) N) as (A & _ & B). cbn [s_params M_SaveLoad.to_dict M_SaveLoad.s_params] in A, B.
    destruct (load m0 (to_dict observable measurement true m) true) as [m'|] eqn:E.
    - exists m'. split; [reflexivity|]. destruct (B true m' E) as (G & Kk & Eh & En & Ei).
      assert (Pm : m_params m' = m_params m).
      { apply same_lists; [rewrite Kk, P0, shape_keys, <- S, <- shape_keys; reflexivity|rewrite Kk, P0; apply params_nodup|]. intros k. rewrite G. specialize (Sg k). destruct (get (m_params m0) k) as [[x g]|], (get (m_params m) k) as [[y g']|]; try contradiction; [subst; reflexivity|reflexivity]. }
      split; [exact Pm|]. assert (Hm : m_heap m' = m_heap m) by (rewrite Eh, Hh; reflexivity). assert (Im : m_inputs m' = m_inputs m) by (rewrite Ei, Hi; reflexivity). split; [exact Hm|]. split; [exact Im|]. split; [exact En|].
      intros Q. assert (Nm : m_noise m' = m_noise m) by (rewrite En; symmetry; exact Q). clear - Pm Hm Im Nm. destruct m' as [a b c d], m as [a' b' c' d']. cbn in *. congruence.
    - exfalso. apply (proj2 A); [|reflexivity]. intros k. specialize (Sg k). destruct (get (m_params m0) k) as [[x g]|], (get (m_params m) k) as [[y g']|]; try contradiction; split; intros Q; congruence || reflexivity.
  Qed.

  (** * _to_dict and _from_dict *)
  Lemma observables_some l : observables_from (map (fun b => Some b) l) = Some l.
  Proof. induction l as [|b l IH]; [reflexivity|]. cbn. rewrite IH. reflexivity. Qed.
  Lemma update_map (p : sdict tensor) : NoDup (map fst p) -> update [] (map (fun kv : string * tensor => (fst kv, (fst (snd kv), true))) p) = map (fun kv : string * tensor => (fst kv, (fst (snd kv), true))) p.
  Proof. intros N. apply (update_new tensor). cbn. rewrite map_map. exact N. Qed.
  (** A saved model can be loaded exactly when it has observables, and no measurement protocol but one whose only option is called "options". *)
  Theorem C62_loadable : forall m save as_torch, from_dict as_torch (to_dict observable measurement save m) <> None <->
    observable <> None /\ forall p o, measurement = Some (p, o) -> exists v, o = [("options", v)].
  Proof.
    intros m save as_torch. unfold M_SaveLoad.from_dict. cbn. destruct observable as [l|]; [rewrite observables_some|cbn; split; [congruence|intros [Q _]; congruence]].
    assert (K : measurement_from as_options measurement <> None <-> forall p o, measurement = Some (p, o) -> exists v, o = [("options", v)]).
    { destruct measurement as [[p o]|]; cbn; [|split; [intros _ p o Q; discriminate|discriminate]]. split.
      - intros H p' o' Q. injection Q as <- <-. destruct o as [|[k v] [|? ?]]; try congruence. destruct (String.eqb_spec k "options") as [->|]; [exists v; reflexivity|congruence].
      - intros H. destruct (H p o eq_refl) as [v ->]. cbn. discriminate. }
    rewrite <- K. destruct (measurement_from as_options measurement); split; try congruence; [intros _; split; discriminate|intros [_ Q]; congruence].
  Qed.
  (** What is loaded: the observables, the parameter objects and the noise are the saved ones.  Without as_torch the parameters are those of a new model, whatever
      was saved; with as_torch they have the saved values, and all of them require gradients; without saved parameters there are none. *)
  Theorem C62_loaded : forall m save as_torch r, NoDup (map fst (m_params m)) -> from_dict as_torch (to_dict observable measurement save m) = Some r ->
    let m' := l_model X Noise V r in
    observable = Some (l_observables X Noise V r) /\ m_heap m' = m_heap m /\ m_noise m' = m_noise m /\ m_inputs m' = m_inputs (new_model observable (m_heap m) (m_noise m)) /\
    m_params m' = if as_torch then if save : bool then map (fun kv : string * tensor => (fst kv, (fst (snd kv), true))) (m_params m) else [] else m_params (new_model observable (m_heap m) (m_noise m)).
  Proof.
    intros m save as_torch r N H. unfold M_SaveLoad.from_dict in H. cbn in H. destruct observable as [l|]; [rewrite observables_some in H|discriminate].
    destruct (measurement_from as_options measurement) as [me|]; [|discriminate]. injection H as <-. cbn. split; [reflexivity|].
    destruct as_torch; cbn; [|repeat split; reflexivity]. repeat (split; [reflexivity|]). destruct save; [apply update_map, N|reflexivity].
  Qed.
  (** A QNN also keeps the names and the order of its inputs. *)
  Theorem C62_qnn : forall h noise given q cs save mode as_torch, new_qnn observable h noise given = Some q -> Forall (keeps_flags X Noise (meas V) Mit Obs Args) cs ->
    forall eqI, let q' := qexec X Noise (meas V) Mit Obs Args Res eqE str_of hash_of fn reshape expand one number initial is_time ustr uniqE uniqS parameter_dict use_gate_params b_run b_sample b_expectation circuit_block observable measurement eqI q cs in
    forall r, from_dict as_torch (to_dict observable measurement save (q_model X Noise q')) = Some r ->
      exists l mode', qnn_from_dict as_torch (qnn_to_dict observable measurement save q' mode) = Some (r, l, mode') /\ map i_name l = map i_name (q_inputs X Noise q) /\ mode' = AD.
  Proof.
    intros h noise given q cs save mode as_torch Q K eqI q' r H.
    destruct (C61_history X Noise (meas V) Mit Obs Args Res eqE str_of hash_of fn reshape expand one number initial is_time ustr uniqE uniqS parameter_dict use_gate_params b_run b_sample b_expectation circuit_block observable measurement eqI q cs) as [Iq _]. fold q' in Iq.
    pose proof (history_flags X Noise (meas V) Mit Obs Args Res eqE str_of hash_of fn reshape expand one number initial is_time ustr uniqE uniqS parameter_dict use_gate_params b_run b_sample b_expectation circuit_block observable measurement eqI q cs K) as Hq. fold q' in Hq.
    assert (Z : m_heap (q_model X Noise q) = h /\ List.length (q_inputs X Noise q) = in_features X Noise (new_model observable h noise)).
    { unfold M_Qnn.new_qnn in Q. destruct observable as [obs|]; [|discriminate]. destruct given as [l|].
      - destruct (Nat.eqb_spec (in_features X Noise (new_model (Some obs) h noise)) (List.length l)) as [E|]; [|discriminate]. injection Q as <-. cbn [M_Qnn.q_model M_Qnn.q_inputs]. split; [reflexivity|]. rewrite map_length. congruence.
      - destruct (Nat.leb _ _); [|discriminate]. injection Q as <-. cbn [M_Qnn.q_model M_Qnn.q_inputs]. split; [reflexivity|]. rewrite map_length. reflexivity. }
    destruct Z as [Zh Zl]. unfold M_SaveLoad.from_dict in H. unfold M_SaveLoad.qnn_from_dict. cbn in H |- *. destruct observable as [obs|]; [rewrite observables_some in *|discriminate].
    destruct (measurement_from as_options measurement) as [me|]; [|discriminate]. injection H as <-.
    unfold M_Qnn.new_qnn. rewrite !map_length, Iq, Hq, Zh, Zl. unfold in_features at 1. cbn [M_Model.m_inputs M_Model.new_model]. unfold in_features. cbn [M_Model.m_inputs M_Model.new_model]. rewrite Nat.eqb_refl. cbn [M_Qnn.q_model M_Qnn.q_inputs].
    do 2 eexists. split; [reflexivity|]. split; [|reflexivity]. rewrite !map_map. reflexivity.
  Qed.
End T.

(** * A model *)
Notation case_to := (to_dict nat nat nat case_obs).
Definition case_from := from_dict nat nat nat case_str_of case_hash_of case_number (fun v => v) (fun _ => false) ticks (fun l => l) (fun l => l) (fun d => d) case_circuit (fun _ => []).
Definition case_load := load_params_from_dict nat nat nat.
(** The trained parameters are loaded into a new model; a dictionary with another key is refused only if strict. *)
Example C62_case : let m := case_exec true case_start [case_Reset [20; 30]] in
  option_map (vparams nat nat) (case_load case_start (case_to None true m) true) = Some [("theta", 20); ("w", 30)] /\
  case_load case_start (Saved nat nat nat case_objects [] None None [] [("w", (8, true)); ("z", (9, true))]) true = None /\
  option_map (vparams nat nat) (case_load case_start (Saved nat nat nat case_objects [] None None [] [("w", (8, true)); ("z", (9, true))]) false) = Some [("theta", 5); ("w", 8)] /\
  case_from true (case_to None true m) <> None.
Proof. vm_compute. repeat split; discriminate. Qed.
(** Loading a saved model as it is by default gives the initial parameters, not the trained ones. *)
Theorem C62_default_refuted : exists m r, case_from false (case_to None true m) = Some r /\ vparams nat nat (l_model nat nat nat r) <> vparams nat nat m.
Proof. exists (case_exec true case_start [case_Reset [20; 30]]). eexists. split; [vm_compute; reflexivity|]. vm_compute. discriminate. Qed.
(** Loading it as torch parameters makes the constants of the circuit trainable: the model has more variational parameters than the saved one, and resetting them
    changes a constant. *)
Theorem C62_constants_refuted : exists m r, case_from true (case_to None true m) = Some r /\
  num_vparams nat nat m = 2 /\ num_vparams nat nat (l_model nat nat nat r) = 3 /\
  exists m', reset_vparams nat nat (l_model nat nat nat r) [1; 2; 3] = Some m' /\ get (m_params nat nat m) "fix_0" = Some (3, false) /\ get (m_params nat nat m') "fix_0" = Some (2, true).
Proof. exists case_start. eexists. split; [vm_compute; reflexivity|]. split; [reflexivity|]. split; [reflexivity|]. eexists. split; [vm_compute; reflexivity|]. split; reflexivity. Qed.
(** A model without observables can be saved but never loaded. *)
Theorem C62_observable_refuted : forall X Noise V str_of hash_of number initial is_time ustr uniqE uniqS parameter_dict circuit_block as_options measurement save as_torch m,
  from_dict X Noise V str_of hash_of number initial is_time ustr uniqE uniqS parameter_dict circuit_block as_options as_torch (to_dict X Noise V None measurement save m) = None.
Proof. reflexivity. Qed.
(** Nor a model that measures with, for instance, a number of shots. *)
Theorem C62_measurement_refuted : forall m save as_torch, case_from as_torch (case_to (Some ("tomography", [("n_shots", 1000)])) save m) = None.
Proof. reflexivity. Qed.
(** A QNN whose inputs are differentiated by finite differences comes back with automatic differentiation. *)
Definition pair_from := qnn_from_dict nat nat nat pair_str case_hash_of case_number (fun v => v) (fun _ => false) ticks (fun l => l) (fun l => l) (fun d => d) pair_circuit (fun _ => []).
Theorem C62_mode_refuted : exists q r l mode, pair_new (Some [Text "y"; Text "x"]) = Some q /\ pair_from true (qnn_to_dict nat nat nat pair_obs None true q FD) = Some (r, l, mode) /\ map i_name l = ["y"; "x"] /\ mode <> FD.
Proof. do 4 eexists. split; [vm_compute; reflexivity|]. split; [vm_compute; reflexivity|]. split; [reflexivity|discriminate]. Qed.

Print Assumptions C62_load_params. Print Assumptions C62_resume. Print Assumptions C62_loadable. Print Assumptions C62_loaded. Print Assumptions C62_qnn.
Print Assumptions C62_default_refuted. Print Assumptions C62_constants_refuted. Print Assumptions C62_observable_refuted. Print Assumptions C62_measurement_refuted. Print Assumptions C62_mode_refuted.
