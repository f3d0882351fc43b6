(** C59: the calls on a QuantumModel. *)
From Coq Require Import String Ascii List Arith Bool Lia Permutation.
From Verif Require Import M_Trainable P_Trainable M_Embedding P_Embedding M_Model.
Import ListNotations.
Open Scope string_scope.
Open Scope list_scope.

(** * Specification *)
Section T.
  Variables X Noise Meas Mit Obs Args Res : Type.
  Notation tensor := (tensor X).
  Variable eqE : forall a b : pexpr, {a = b} + {a <> b}.
  Variable str_of hash_of : pexpr -> string.
  Variable fn : pexpr -> sdict tensor -> tensor.
  Variable reshape expand : tensor -> tensor.
  Variable one : tensor.
  Variable number : pexpr -> X.
  Variable initial : nat -> X.
  Variable is_time : nat -> bool.
  Variable ustr : nat -> string.
  Variable uniqE : list pexpr -> list pexpr.
  Variable uniqS : list (symbol tensor) -> list (symbol tensor).
  Variable parameter_dict : sdict tensor -> sdict tensor.
  Variable use_gate_params : bool.
  Variable b_run : inputs_t tensor -> Args -> Res.
  Variable b_sample : inputs_t tensor -> option Noise -> option Mit -> Args -> Res.
  Variable b_expectation : option Obs -> inputs_t tensor -> option Meas -> option Noise -> option Mit -> Args -> Res.
  Variable circuit_block : tblock.
  Variable observable : option (list tblock).
  Variables (measurement : option Meas) (mitigation : option Mit).
  (** list(set(.)) and ParameterDict keep the elements; identifiers are printed injectively. *)
  Hypothesis HuE : forall l x, In x (uniqE l) <-> In x l.
  Hypothesis HuS : forall l x, In x (uniqS l) <-> In x l.
  Hypothesis Hpd : forall d, Permutation (parameter_dict d) d.
  Hypothesis Hu : forall u u', ustr u = ustr u' -> u = u'.
  (** The circuit and the observables. *)
  Definition blocks : list tblock := circuit_block :: match observable with Some l => l | None => [] end.
  Hypothesis Hp : Forall plain_controls blocks.
  Hypothesis Hc : forall b b' u e e', In b blocks -> In b' blocks -> entry u e b -> entry u e' b' -> e = e'.
  (** A parameter object is used by the model, an expression is a constant of the model. *)
  Definition used (o : nat) : Prop := exists b, In b blocks /\ occurs o b.
  Definition constant_of (e : pexpr) : Prop := exists b u, In b blocks /\ In (u, e) (uuid_to_expression b []) /\ forall o, ~ occurs_e o e.

  Notation model := (model X Noise).
  Notation call := (call X Noise Meas Mit Obs Args).
  Notation step := (step X Noise Meas Mit Obs Args Res eqE str_of hash_of fn reshape expand one number initial is_time ustr uniqE uniqS parameter_dict use_gate_params b_run b_sample b_expectation circuit_block observable measurement mitigation).
  Notation exec := (exec X Noise Meas Mit Obs Args Res eqE str_of hash_of fn reshape expand one number initial is_time ustr uniqE uniqS parameter_dict use_gate_params b_run b_sample b_expectation circuit_block observable measurement mitigation).
  Notation new_model := (new_model X Noise str_of hash_of number initial is_time ustr uniqE uniqS parameter_dict circuit_block observable).
  Notation run := (run X Noise Args Res eqE str_of hash_of fn reshape expand one initial is_time ustr uniqE use_gate_params b_run circuit_block observable).
  Notation sample := (sample X Noise Mit Args Res eqE str_of hash_of fn reshape expand one initial is_time ustr uniqE use_gate_params b_sample circuit_block observable mitigation).
  Notation expectation := (expectation X Noise Meas Mit Obs Args Res eqE str_of hash_of fn reshape expand one initial is_time ustr uniqE use_gate_params b_expectation circuit_block observable measurement mitigation).
  Notation free := (free X initial is_time).
  Notation embed := (embed X eqE str_of hash_of fn reshape expand one initial is_time ustr uniqE use_gate_params circuit_block observable).
  Notation embedding_fn := (embedding_fn X eqE str_of hash_of fn reshape expand one initial is_time ustr uniqE use_gate_params).
  Notation embed_all := (embed_all X eqE str_of hash_of fn reshape expand one initial is_time ustr uniqE use_gate_params).
  Notation uuids := (uuids ustr).
  Notation strfy := (stringify pexpr is_number is_array str_of hash_of no_string).
  Notation init_params := (init_params X str_of hash_of number initial is_time ustr uniqE uniqS).
  Notation converted_params := (converted_params X str_of hash_of number initial is_time ustr uniqE uniqS circuit_block observable).
  Notation set_flags_of := (set_flags_of X Noise str_of hash_of number initial is_time ustr uniqE uniqS parameter_dict circuit_block observable).
  Notation m_heap := (m_heap X Noise). Notation m_params := (m_params X Noise). Notation m_noise := (m_noise X Noise). Notation m_inputs := (m_inputs X Noise).
  Notation vparams := (vparams X Noise). Notation vals_vparams := (vals_vparams X Noise).

  (** Calls that only ask for a value: run, sample, and expectation without a noise model of its own. *)
  Definition asks (c : call) : bool :=
    match c with Run _ _ _ _ _ _ _ _ | Sample _ _ _ _ _ _ _ _ _ _ => true | Expectation _ _ _ _ _ _ _ _ _ None _ _ => true | _ => false end.

  Lemma asking_only m v o me k a m' r : expectation m v o me None k a = Some (m', r) -> m' = m.
  Proof. unfold M_Model.expectation. repeat match goal with |- context [match ?x with _ => _ end] => destruct x end; congruence. Qed.
  (** Asking for values never changes a later answer. *)
  Theorem C59_asking : forall m cs, exec m cs = exec m (filter (fun c => negb (asks c)) cs).
  Proof.
    intros m cs. unfold M_Model.exec. revert m. induction cs as [|c cs IH]; intros m; [reflexivity|]. cbn [fold_left filter].
    assert (K : asks c = true -> fst (step m c) = m).
    { destruct c as [v a|v n k a|v o me n k a|vs|f|l|l]; cbn [asks]; intros H; try discriminate; try reflexivity. destruct n; [discriminate|]. cbn [M_Model.step].
      change (fst (match expectation m v o me None k a with Some (m', r) => (m', Got Res r) | None => (m, Raised Res) end) = m). destruct (expectation m v o me None k a) as [[m' r]|] eqn:Q; [|reflexivity]. exact (asking_only m v o me k a m' r Q). }
    destruct (asks c); cbn [negb]; [rewrite K by reflexivity; apply IH|]. cbn [fold_left]. apply IH.
  Qed.

  (** * Values of the variational parameters *)
  Lemma assign_vals p : forall vs, List.length vs = List.length (filter (fun kv => requires_grad X (snd kv)) p) ->
    filter (fun kv => requires_grad X (snd kv)) (assign X p vs) = combine (map fst (filter (fun kv => requires_grad X (snd kv)) p)) (map (fun v => (v, true)) vs) /\
    filter (fun kv => negb (requires_grad X (snd kv))) (assign X p vs) = filter (fun kv => negb (requires_grad X (snd kv))) p /\ map fst (assign X p vs) = map fst p.
  Proof.
    induction p as [|[k [x g]] p IH]; intros vs; cbn [filter assign requires_grad snd fst map].
    - destruct vs; [intros _; repeat split|discriminate].
    - destruct g; cbn [List.length].
      + destruct vs as [|v vs]; [discriminate|]. intros L. destruct (IH vs (eq_add_S _ _ L)) as (A & B & D). cbn. rewrite A, B, D. repeat split.
      + intros L. destruct (IH vs L) as (A & B & D). cbn. rewrite A, B, D. repeat split.
  Qed.
  Lemma combine_snd {A B} (l : list A) (m : list B) : List.length l = List.length m -> map snd (combine l m) = m /\ map fst (combine l m) = l.
  Proof. revert m. induction l as [|a l IH]; intros [|b m] L; try discriminate; [split; reflexivity|]. destruct (IH m (eq_add_S _ _ L)) as [E1 E2]. cbn. rewrite E1, E2. split; reflexivity. Qed.
  (** reset_vparams sets the values, in the order of vparams, and nothing else; a wrong number of values is refused and changes nothing. *)
  Theorem C59_reset : forall m vs,
    (List.length vs = List.length (vparams m) -> exists m', step m (ResetVparams _ _ _ _ _ _ vs) = (m', Done Res) /\
       vals_vparams m' = vs /\ map fst (vparams m') = map fst (vparams m) /\ m_heap m' = m_heap m /\ m_noise m' = m_noise m /\ m_inputs m' = m_inputs m /\
       (forall k v, In (k, (v, false)) (m_params m') <-> In (k, (v, false)) (m_params m)) /\ map fst (m_params m') = map fst (m_params m)) /\
    (List.length vs <> List.length (vparams m) -> step m (ResetVparams _ _ _ _ _ _ vs) = (m, Raised Res)).
  Proof.
    intros m vs. cbn [M_Model.step]. unfold reset_vparams, num_vparams, M_Model.vals_vparams. rewrite map_length. split; intros L.
    - rewrite L, Nat.eqb_refl. eexists. split; [reflexivity|]. unfold M_Model.vparams, with_params in *. cbn [M_Model.m_heap M_Model.m_params M_Model.m_noise M_Model.m_inputs] in *.
      rewrite map_length in L. destruct (assign_vals _ vs L) as (A & B & D). rewrite A, !map_map, D.
      assert (L' : List.length (map fst (filter (fun kv => requires_grad X (snd kv)) (m_params m))) = List.length (map (fun v : X => (v, true)) vs)) by (rewrite !map_length; symmetry; exact L).
      destruct (combine_snd _ _ L') as [E1 E2].
      split; [|split; [|repeat split]].
      + cbn [fst snd]. transitivity (map fst (map snd (combine (map fst (filter (fun kv => requires_grad X (snd kv)) (m_params m))) (map (fun v : X => (v, true)) vs)))); [rewrite map_map; reflexivity|]. rewrite E1, map_map. apply map_id.
      + cbn [fst snd]. exact E2.
      + intros I. assert (J : In (k, (v, false)) (filter (fun kv => negb (requires_grad X (snd kv))) (assign X (m_params m) vs))) by (apply filter_In; split; [exact I|reflexivity]). rewrite B in J. apply filter_In in J. tauto.
      + intros I. assert (J : In (k, (v, false)) (filter (fun kv => negb (requires_grad X (snd kv))) (m_params m))) by (apply filter_In; split; [exact I|reflexivity]). rewrite <- B in J. apply filter_In in J. tauto.
    - destruct (Nat.eqb_spec (List.length vs) (List.length (vparams m))) as [Q|Q]; [contradiction|reflexivity].
  Qed.

  (** * Evaluation *)
  Lemma nd_dset d k v : NoDup (map fst d) -> NoDup (map fst (dset d k v)).
  Proof.
    intros N. unfold dset. destruct (existsb (fun p => Nat.eqb (fst p) k) d) eqn:X0.
    - rewrite map_map. replace (map (fun x => fst (if Nat.eqb (fst x) k then (k, v) else x)) d) with (map fst d); [exact N|]. apply map_ext. intros [a b]. cbn. destruct (Nat.eqb_spec a k); [cbn; congruence|reflexivity].
    - rewrite map_app. cbn [map fst]. apply (Permutation_NoDup (l := k :: map fst d)); [apply Permutation_cons_append|]. constructor; [|exact N]. intros I. apply in_map_iff in I as ([a b] & <- & I).
      assert (Y : existsb (fun p => Nat.eqb (fst p) (fst (a, b))) d = true) by (apply existsb_exists; exists (a, b); split; [exact I|apply Nat.eqb_refl]). congruence.
  Qed.
  Lemma nd_dset_all m : forall d, NoDup (map fst d) -> NoDup (map fst (dset_all d m)).
  Proof. unfold dset_all. induction m as [|[k v] m IH]; intros d N; [exact N|]. cbn [fold_left fst snd]. apply IH, nd_dset, N. Qed.
  Lemma nd_u2e b : forall d, NoDup (map fst d) -> NoDup (map fst (uuid_to_expression b d)).
  Proof.
    induction b as [|b IH|m|g m IH|b u e IH|bs IH|m] using tblock_ind'; intros d N; cbn [uuid_to_expression]; try assumption; try (apply nd_dset_all; assumption).
    - apply nd_dset_all. destruct g; [apply IH, N|exact N].
    - apply IH, nd_dset, N.
    - revert d N. induction IH as [|b bs Hb _ IHb]; intros d N; [exact N|]. cbn [fold_left]. apply IHb, Hb, N.
  Qed.
  Lemma nd_uuids b : NoDup (map fst (uuids b)).
  Proof.
    unfold M_Model.uuids. rewrite map_map. cbn [fst]. rewrite <- (map_map fst ustr). assert (N := nd_u2e b [] (NoDup_nil _)). induction N as [|x l Hx N IH]; [constructor|]. cbn. constructor; [|exact IH].
    intros I. apply in_map_iff in I as (y & Q & I). apply Hu in Q. subst. contradiction.
  Qed.
  Lemma in_uuids b s e : In (s, e) (uuids b) <-> exists u, s = ustr u /\ In (u, e) (uuid_to_expression b []).
  Proof.
    unfold M_Model.uuids. rewrite in_map_iff. split; [intros ([u e'] & Q & I); injection Q as <- <-; exists u; auto|]. intros (u & -> & I). exists (u, e). auto.
  Qed.
  Lemma same_expr b b' s e e' : In b blocks -> In b' blocks -> In (s, e) (uuids b) -> In (s, e') (uuids b') -> e = e'.
  Proof.
    intros B B' I I'. apply in_uuids in I as (u & -> & I). apply in_uuids in I' as (u' & Q & I'). apply Hu in Q. subst u'.
    apply u2e_sound in I as [I|[]]. apply u2e_sound in I' as [I'|[]]. exact (Hc b b' u e e' B B' I I').
  Qed.
  Lemma const_spec e : constant pexpr is_number is_array e <-> forall o, ~ occurs_e o e.
  Proof.
    unfold constant, is_number, is_array. split.
    - intros [H|H]; [|discriminate]. intros o Ho. apply free_symbols_spec in Ho. destruct (free_symbols e); [exact Ho|discriminate].
    - intros H. left. destruct (free_symbols e) as [|o l] eqn:F; [reflexivity|]. exfalso. apply (H o). apply free_symbols_spec. rewrite F. left. reflexivity.
  Qed.
  Lemma get_none_rev (d : sdict tensor) k : get (rev d) k = None <-> get d k = None.
  Proof. rewrite !get_none, map_rev, <- in_rev. tauto. Qed.

  (** The entries of the gates of a block, in what the backend is handed: the constant, or the expression at the current values. *)
  Definition entries_ok (h : heap) (params : sdict tensor) (v : inputs_t tensor) (b : tblock) (d : sdict tensor) : Prop :=
    forall u e, In (u, e) (uuid_to_expression b []) -> exists x, get d (ustr u) = Some x /\
      ((forall o, ~ occurs_e o e) -> get params (strfy e) = Some x) /\
      ((exists o, occurs_e o e) -> expression_value pexpr tensor (free h) fn reshape one params v e x).
  Definition entry_spec h params v s e (x : tensor) : Prop :=
    (constant pexpr is_number is_array e -> get params (strfy e) = Some x) /\ (~ constant pexpr is_number is_array e -> expression_value pexpr tensor (free h) fn reshape one params v e x) /\ s = s :> string.
  Lemma gate_level h b params v d : dicts tensor v -> embedding_gate pexpr tensor eqE (free h) is_number is_array str_of hash_of no_string fn reshape one uniqE (uuids b) params v = Some d ->
    (forall s e, In (s, e) (uuids b) -> exists x, get d s = Some x /\ (constant pexpr is_number is_array e -> get params (strfy e) = Some x) /\
       (~ constant pexpr is_number is_array e -> expression_value pexpr tensor (free h) fn reshape one params v e x)) /\ (forall s, get d s <> None -> In s (map fst (uuids b))).
  Proof.
    intros Di H.
    exact (C20_gate_level pexpr tensor eqE (free h) is_number is_array str_of hash_of no_string fn reshape expand one (fun e => (number e, false)) (fun e => (number e, false)) (fun v => (fst v, true)) uniqE HuE (uuids b) params v d Di (nd_uuids b) H).
  Qed.
  Lemma embed_all_spec h params v : use_gate_params = true -> dicts tensor v -> forall bs acc d (P : list tblock), incl bs blocks -> incl P blocks ->
    (forall b s e, In b P -> In (s, e) (uuids b) -> exists x, get acc s = Some x /\ entry_spec h params v s e x) ->
    (forall s, get acc s <> None -> exists b e, In b blocks /\ In b P /\ In (s, e) (uuids b)) ->
    embed_all h bs params v acc = Some d -> forall b s e, In b (P ++ bs) -> In (s, e) (uuids b) -> exists x, get d s = Some x /\ entry_spec h params v s e x.
  Proof.
    intros G Di. induction bs as [|b0 bs IH]; intros acc d P Ib IP A A2 H b s e B I; cbn [M_Model.embed_all] in H.
    - injection H as <-. rewrite app_nil_r in B. exact (A b s e B I).
    - destruct (embedding_fn h b0 params v) as [d0|] eqn:E0; [|discriminate].
      unfold M_Model.embedding_fn in E0. rewrite G in E0. destruct (gate_level _ _ _ v d0 Di E0) as [S0 K0].
      refine (IH (update acc d0) d (P ++ [b0]) _ _ _ _ H b s e _ I); [intros z Iz; apply Ib; right; exact Iz|apply incl_app; [exact IP|intros z [<-|[]]; apply Ib; left; reflexivity]| | |rewrite <- app_assoc; exact B].
      + intros b' s' e' B' I'. rewrite get_update. destruct (get (rev d0) s') as [x|] eqn:Gr.
        * assert (Nn : get d0 s' <> None) by (intros Q; apply (proj2 (get_none_rev _ _)) in Q; congruence). apply K0 in Nn. apply in_map_iff in Nn as ([s'' e''] & Q & I''). cbn in Q. subst s''.
          assert (e' = e'') by (apply (same_expr b' b0 s'); [apply in_app_iff in B' as [B'|[<-|[]]]; [apply IP, B'|apply Ib; left; reflexivity]|apply Ib; left; reflexivity|exact I'|exact I'']). subst e''.
          exists x. split; [reflexivity|].
          assert (Nd0 : NoDup (map fst d0)). { unfold embedding_gate in E0. destruct (effective_inputs _ v); [|discriminate]. destruct (embedded _ _ _ _ _ _ _ _ _ _ _ _ _ _ _ _); [|discriminate]. 
            clear - E0. assert (K : forall l dd acc g, gate_entries pexpr tensor eqE dd l acc = Some g -> NoDup (map fst acc) -> NoDup (map fst g)).
            { induction l as [|[u e] l IH]; intros dd acc g H N; cbn in H; [injection H as <-; exact N|]. destruct (eget _ _ _ _ _) as [v|]; [|discriminate]. apply (IH _ _ _ H). apply (nodup_set tensor (fun v => v) (fun v => v) v (fun v => v)). exact N. }
            apply (K _ _ _ _ E0). constructor. }
          rewrite get_rev in Gr by exact Nd0. destruct (S0 s' e' I'') as (x' & Gx & Cx & Vx). assert (x' = x) by congruence. subst x'. split; [exact Cx|split; [exact Vx|reflexivity]].
        * apply in_app_iff in B' as [B'|[<-|[]]]; [exact (A b' s' e' B' I')|]. exfalso. destruct (S0 s' e' I') as (x' & Gx & _). apply (proj1 (get_none_rev _ _)) in Gr. congruence.
      + intros s' Q. rewrite get_update in Q. destruct (get (rev d0) s') as [x|] eqn:Gr.
        * assert (Nn : get d0 s' <> None) by (intros Q'; apply (proj2 (get_none_rev _ _)) in Q'; congruence). apply K0 in Nn. apply in_map_iff in Nn as ([s'' e''] & Q' & I''). cbn in Q'. subst s''. exists b0, e''. split; [apply Ib; left; reflexivity|]. split; [apply in_or_app; right; left; reflexivity|exact I''].
        * destruct (A2 s' Q) as (b' & e' & B1 & B2 & B3). exists b', e'. split; [exact B1|]. split; [apply in_or_app; left; exact B2|exact B3].
  Qed.
  Lemma entries_of h params v b d : (forall s e, In (s, e) (uuids b) -> exists x, get d s = Some x /\ entry_spec h params v s e x) -> entries_ok h params v b d.
  Proof.
    intros H u e I. destruct (H (ustr u) e) as (x & G & C1 & C2 & _); [apply in_uuids; exists u; auto|]. exists x. split; [exact G|]. split.
    - intros Q. apply C1. apply const_spec, Q.
    - intros (o & Ho). apply C2. intros Q. apply const_spec with (o := o) in Q. exact (Q Ho).
  Qed.
  (** What the backend is handed. *)
  Definition handed (m : model) (v : inputs_t tensor) (g : inputs_t tensor) : Prop :=
    exists dc dobs, (g = Flat dc /\ dobs = dc \/ g = Nested [("circuit", dc); ("observables", dobs)]) /\
      entries_ok (m_heap m) (m_params m) v circuit_block dc /\ (forall b obs, observable = Some obs -> In b obs -> entries_ok (m_heap m) (m_params m) v b dobs).
  (** At gate level: run, sample and expectation hand the backend the same values, those of the expressions at the user's values and the current parameters;
      the arguments of the call win over the model's own; if one of them raises KeyError, so do the others. *)
  Theorem C59_evaluation : forall m v a, use_gate_params = true -> dicts tensor v ->
    (exists g, handed m v g /\ run m v a = Some (b_run g a) /\
       (forall n k, sample m v n k a = Some (b_sample g (match n with Some _ => n | None => m_noise m end) (match k with Some _ => k | None => mitigation end) a)) /\
       (forall o me n k, o <> None \/ observable <> None -> exists m', expectation m v o me n k a = Some (m',
          b_expectation o g (match me with Some _ => me | None => measurement end) (match n with Some _ => n | None => m_noise m end) (match k with Some _ => k | None => mitigation end) a))) \/
    (run m v a = None /\ (forall n k, sample m v n k a = None) /\ (forall o me n k, expectation m v o me n k a = None)).
  Proof.
    intros m v a G Di. destruct (embed (m_heap m) (m_params m) v) as [g|] eqn:Eg.
    - left. exists g. split; [|unfold M_Model.run, M_Model.sample, M_Model.expectation; rewrite Eg; split; [reflexivity|split; [reflexivity|]]].
      2: { intros o me n k Q. destruct o, observable; try (eexists; reflexivity). destruct Q; congruence. }
      unfold M_Model.embed in Eg. destruct (embedding_fn (m_heap m) circuit_block (m_params m) v) as [c|] eqn:Ec; [|discriminate].
      assert (Ic : incl [circuit_block] blocks) by (intros z [<-|[]]; left; reflexivity).
      assert (Ac : forall b s e, In b [circuit_block] -> In (s, e) (uuids b) -> exists x, get c s = Some x /\ entry_spec (m_heap m) (m_params m) v s e x).
      { intros b s e [<-|[]] I. unfold M_Model.embedding_fn in Ec. rewrite G in Ec. destruct (gate_level _ _ _ v c Di Ec) as [S0 K0].
        destruct (S0 s e I) as (x & Gx & Cx & Vx). exists x. split; [exact Gx|]. split; [exact Cx|split; [exact Vx|reflexivity]]. }
      assert (Ac2 : forall s, get c s <> None -> exists b e, In b blocks /\ In b [circuit_block] /\ In (s, e) (uuids b)).
      { intros s Q. unfold M_Model.embedding_fn in Ec. rewrite G in Ec. destruct (gate_level _ _ _ v c Di Ec) as [S0 K0].
        apply K0 in Q. apply in_map_iff in Q as ([s' e] & <- & I). exists circuit_block, e. split; [left; reflexivity|]. split; [left; reflexivity|exact I]. }
      destruct observable as [obs|] eqn:Ob.
      + assert (Io : incl obs blocks) by (intros z Iz; unfold blocks; rewrite Ob; right; exact Iz).
        destruct (is_nested X v) eqn:Nv.
        * destruct (embed_all (m_heap m) obs (m_params m) v []) as [d|] eqn:Ea; [|discriminate]. injection Eg as <-. exists c, d. split; [right; reflexivity|]. split.
          -- apply entries_of. intros s e I. exact (Ac circuit_block s e (or_introl eq_refl) I).
          -- intros b ob' Q Ib'. assert (ob' = obs) by congruence. subst ob'. apply entries_of. intros s e I.
             refine (embed_all_spec (m_heap m) (m_params m) v G Di obs [] d [] Io _ _ _ Ea b s e Ib' I); [intros z []|intros b0 s0 e0 []|intros s0 Q0; exfalso; apply Q0; reflexivity].
        * destruct (embed_all (m_heap m) obs (m_params m) v c) as [d|] eqn:Ea; [|discriminate]. injection Eg as <-. exists d, d. split; [left; split; reflexivity|].
          pose proof (embed_all_spec (m_heap m) (m_params m) v G Di obs c d [circuit_block] Io Ic Ac Ac2 Ea) as F. split.
          -- apply entries_of. intros s e I. exact (F circuit_block s e (or_introl eq_refl) I).
          -- intros b ob' Q Ib'. assert (ob' = obs) by congruence. subst ob'. apply entries_of. intros s e I. exact (F b s e (or_intror Ib') I).
      + injection Eg as <-. exists c, c. split; [left; split; reflexivity|]. split; [|intros b obs Q; congruence]. apply entries_of. intros s e I. exact (Ac circuit_block s e (or_introl eq_refl) I).
    - right. unfold M_Model.run, M_Model.sample, M_Model.expectation. rewrite Eg. split; [reflexivity|]. split; [reflexivity|]. intros o me n k. destruct o, observable; reflexivity.
  Qed.

  (** Expression level: the same, one entry per expression. *)
  Definition entries_ok_expr (h : heap) (params : sdict tensor) (v : inputs_t tensor) (b : tblock) (d : sdict tensor) : Prop :=
    (forall k x, input_value v k = Some x -> get d k = Some (expand x)) /\
    (forall k x, input_value v k = None -> get params k = Some x -> get d k = Some (expand x)) /\
    (forall u e, In (u, e) (uuid_to_expression b []) -> input_value v (strfy e) = None -> get params (strfy e) = None ->
       exists x, get d (strfy e) = Some (expand x) /\ expression_value pexpr tensor (free h) fn reshape one params v e x).
  (** What the backend gets has the form of what was given: separate dictionaries for the circuit and the observables if they were given separately and
      there are observables, otherwise one for both. *)
  Theorem C59_form : forall h params v g, embed h params v = Some g ->
    (exists d, g = Flat d /\ ((exists v', v = Flat v') \/ observable = None)) \/ (exists dc dobs v', g = Nested [("circuit", dc); ("observables", dobs)] /\ v = Nested v' /\ observable <> None).
  Proof.
    intros h params v g H. unfold M_Model.embed in H. destruct (embedding_fn h circuit_block params v) as [c|]; [|discriminate H]. destruct observable as [obs|]; [|injection H as <-; left; exists c; auto].
    destruct v as [v'|v']; cbn [is_nested] in H; destruct (M_Model.embed_all _ _ _ _ _ _ _ _ _ _ _ _ _ _ _ _ _ _) as [d|]; try discriminate H; injection H as <-; [left; exists d; eauto|right; exists c, d, v'; repeat split; discriminate].
  Qed.
  (** Distinct expressions of the model are printed differently. *)
  Definition distinct_names : Prop := forall b b' u u' e e', In b blocks -> In b' blocks -> In (u, e) (uuid_to_expression b []) -> In (u', e') (uuid_to_expression b' []) -> strfy e = strfy e' -> e = e'.
  Definition handed_expr (m : model) (v : inputs_t tensor) (g : inputs_t tensor) : Prop :=
    exists dc dobs, (g = Flat dc /\ dobs = dc \/ g = Nested [("circuit", dc); ("observables", dobs)]) /\
      entries_ok_expr (m_heap m) (m_params m) v circuit_block dc /\ (forall b obs, observable = Some obs -> In b obs -> entries_ok_expr (m_heap m) (m_params m) v b dobs).
  Lemma in_snd b e : In e (map snd (uuids b)) <-> exists u, In (u, e) (uuid_to_expression b []).
  Proof. rewrite in_map_iff. split; [intros ([s e'] & Q & I); cbn in Q; subst e'; apply in_uuids in I as (u & _ & I); exists u; exact I|]. intros (u & I). exists (ustr u, e). split; [reflexivity|]. apply in_uuids. exists u. auto. Qed.
  Lemma expr_level h b params v d : dicts tensor v -> NoDup (map fst params) -> embedding_expr pexpr tensor eqE (free h) is_number is_array str_of hash_of no_string fn reshape expand one uniqE (uuids b) params v = Some d ->
    (forall k x, input_value v k = Some x -> get d k = Some (expand x)) /\ (forall k x, input_value v k = None -> get params k = Some x -> get d k = Some (expand x)) /\
    (forall e, In e (map snd (uuids b)) -> input_value v (strfy e) = None -> get params (strfy e) = None -> (forall e', In e' (map snd (uuids b)) -> strfy e' = strfy e -> e' = e) ->
       exists x, get d (strfy e) = Some (expand x) /\ expression_value pexpr tensor (free h) fn reshape one params v e x) /\
    (forall k, get d k <> None -> input_value v k <> None \/ get params k <> None \/ exists e, In e (map snd (uuids b)) /\ strfy e = k) /\ NoDup (map fst d).
  Proof.
    intros Di Np H. assert (Nd : NoDup (map fst d)).
    { unfold embedding_expr in H. destruct (effective_inputs _ v); [|discriminate]. destruct (embedded _ _ _ _ _ _ _ _ _ _ _ _ _ _ _ _); [|discriminate]. injection H as <-.
      apply (nodup_update tensor (fun v => v) (fun v => v) one (fun v => v)). constructor. }
    destruct (C20_expression_level pexpr tensor eqE (free h) is_number is_array str_of hash_of no_string fn reshape expand one (fun e => (number e, false)) (fun e => (number e, false)) (fun v => (fst v, true)) uniqE HuE (uuids b) params v d Di Np H) as (A & B & D & F).
    repeat (split; [assumption|]). exact Nd.
  Qed.
  Lemma embed_all_get h params v bs : forall acc d, embed_all h bs params v acc = Some d -> forall k,
    (exists b d', In b bs /\ embedding_fn h b params v = Some d' /\ get d' k <> None /\ get d k = get (rev d') k) \/
    (get d k = get acc k /\ forall b, In b bs -> exists d', embedding_fn h b params v = Some d' /\ get d' k = None).
  Proof.
    induction bs as [|b0 bs IH]; intros acc d H k; cbn [M_Model.embed_all] in H; [injection H as <-; right; split; [reflexivity|intros b []]|].
    destruct (embedding_fn h b0 params v) as [d0|] eqn:E0; [|discriminate]. destruct (IH _ _ H k) as [(b & d' & B & Eb & N & Q)|(Q & N)].
    - left. exists b, d'. split; [right; exact B|]. auto.
    - rewrite get_update in Q. destruct (get (rev d0) k) as [x|] eqn:G.
      + left. exists b0, d0. split; [left; reflexivity|]. split; [exact E0|]. split; [intros Z; apply (proj2 (get_none_rev _ _)) in Z; congruence|]. rewrite Q, G. reflexivity.
      + right. split; [exact Q|]. intros b [<-|B]; [|apply N, B]. exists d0. split; [exact E0|]. apply (proj1 (get_none_rev _ _)), G.
  Qed.
  Theorem C59_evaluation_expr : forall m v a, use_gate_params = false -> dicts tensor v -> NoDup (map fst (m_params m)) -> distinct_names ->
    (exists g, handed_expr m v g /\ run m v a = Some (b_run g a) /\
       (forall n k, sample m v n k a = Some (b_sample g (match n with Some _ => n | None => m_noise m end) (match k with Some _ => k | None => mitigation end) a)) /\
       (forall o me n k, o <> None \/ observable <> None -> exists m', expectation m v o me n k a = Some (m',
          b_expectation o g (match me with Some _ => me | None => measurement end) (match n with Some _ => n | None => m_noise m end) (match k with Some _ => k | None => mitigation end) a))) \/
    (run m v a = None /\ (forall n k, sample m v n k a = None) /\ (forall o me n k, expectation m v o me n k a = None)).
  Proof.
    intros m v a G Di Np Dn. destruct (embed (m_heap m) (m_params m) v) as [g|] eqn:Eg.
    2: { right. unfold M_Model.run, M_Model.sample, M_Model.expectation. rewrite Eg. split; [reflexivity|]. split; [reflexivity|]. intros o me n k. destruct o, observable; reflexivity. }
    left. exists g. split; [|unfold M_Model.run, M_Model.sample, M_Model.expectation; rewrite Eg; split; [reflexivity|split; [reflexivity|]]].
    2: { intros o me n k Q. destruct o, observable; try (eexists; reflexivity). destruct Q; congruence. }
    set (h := m_heap m) in *. set (params := m_params m) in *.
    (* each embedded dictionary is as expected *)
    assert (ONE : forall b d, embedding_fn h b params v = Some d ->
      (forall k x, input_value v k = Some x -> get d k = Some (expand x)) /\ (forall k x, input_value v k = None -> get params k = Some x -> get d k = Some (expand x)) /\
      (forall e, In e (map snd (uuids b)) -> input_value v (strfy e) = None -> get params (strfy e) = None -> (forall e', In e' (map snd (uuids b)) -> strfy e' = strfy e -> e' = e) ->
       exists x, get d (strfy e) = Some (expand x) /\ expression_value pexpr tensor (free h) fn reshape one params v e x) /\
      (forall k, get d k <> None -> input_value v k <> None \/ get params k <> None \/ exists e, In e (map snd (uuids b)) /\ strfy e = k) /\ NoDup (map fst d)).
    { intros b d E. unfold M_Model.embedding_fn in E. rewrite G in E. exact (expr_level h b params v d Di Np E). }
    assert (UNI : forall b b' e e', In b blocks -> In b' blocks -> In e (map snd (uuids b)) -> In e' (map snd (uuids b')) -> strfy e = strfy e' -> e = e').
    { intros b b' e e' B B' I I' Q. apply in_snd in I as (u & I). apply in_snd in I' as (u' & I'). exact (Dn b b' u u' e e' B B' I I' Q). }
    (* merging them *)
    assert (MERGE : forall bs acc d (P : list tblock), incl bs blocks -> incl P blocks -> P ++ bs <> [] ->
      (P <> [] -> exists b0, In b0 P /\ embedding_fn h b0 params v = Some acc) -> (P = [] -> acc = []) -> (forall b b', In b P -> In b' P -> b = b') ->
      embed_all h bs params v acc = Some d -> forall b, In b (P ++ bs) -> entries_ok_expr h params v b d).
    { intros bs acc d P Ib IP Ne Ac0 Ac1 Single Ea b B. pose proof (embed_all_get h params v bs acc d Ea) as K.
      assert (WIT : forall k, (exists b' d', In b' (P ++ bs) /\ embedding_fn h b' params v = Some d' /\ get d' k <> None /\ get d k = get d' k) \/ (get d k = None /\ forall b', In b' (P ++ bs) -> exists d', embedding_fn h b' params v = Some d' /\ get d' k = None)).
      { intros k. destruct (K k) as [(b' & d' & B' & E' & N' & Q')|(Q' & N')].
        - left. exists b', d'. split; [apply in_or_app; right; exact B'|]. split; [exact E'|]. split; [exact N'|]. rewrite Q'. apply get_rev. apply (ONE b' d' E').
        - destruct P as [|p P'].
          + right. split; [rewrite Q', (Ac1 eq_refl); reflexivity|exact N'].
          + destruct (Ac0 ltac:(discriminate)) as (b0 & B0 & E0). destruct (get acc k) as [x|] eqn:Gk.
            * left. exists b0, acc. split; [apply in_or_app; left; exact B0|]. split; [exact E0|]. split; [congruence|congruence].
            * right. split; [exact Q'|]. intros b' B'. apply in_app_iff in B' as [B'|B']; [|apply N', B']. rewrite (Single b' b0 B' B0). exists acc. auto. }
      assert (HAVE : exists b' d', In b' (P ++ bs) /\ embedding_fn h b' params v = Some d').
      { destruct (P ++ bs) as [|b1 l] eqn:Q; [congruence|]. rewrite <- Q in *. destruct (WIT "") as [(b' & d' & B' & E' & _)|(_ & W)]; [eauto|]. destruct (W b1) as (d' & E' & _); [rewrite Q; left; reflexivity|]. exists b1, d'. split; [rewrite Q; left; reflexivity|exact E']. }
      assert (NN : forall k, (exists x, input_value v k = Some x) \/ (input_value v k = None /\ exists x, get params k = Some x) -> exists b' d', In b' (P ++ bs) /\ embedding_fn h b' params v = Some d' /\ get d' k <> None /\ get d k = get d' k).
      { intros k Hk. destruct (WIT k) as [W|(_ & W)]; [exact W|]. exfalso. destruct HAVE as (b' & d' & B' & E'). destruct (W b' B') as (d'' & E'' & Z). assert (d'' = d') by congruence. subst d''. destruct (ONE b' d' E') as (O1 & O2 & _).
        destruct Hk as [(x & Hx)|(Hn & x & Hx)]; [rewrite (O1 k x Hx) in Z|rewrite (O2 k x Hn Hx) in Z]; discriminate. }
      split; [|split].
      - intros k x Hx. destruct (NN k (or_introl (ex_intro _ x Hx))) as (b' & d' & B' & E' & _ & Q). rewrite Q. exact (proj1 (ONE b' d' E') k x Hx).
      - intros k x Hn Hx. destruct (NN k (or_intror (conj Hn (ex_intro _ x Hx)))) as (b' & d' & B' & E' & _ & Q). rewrite Q. exact (proj1 (proj2 (ONE b' d' E')) k x Hn Hx).
      - intros u e I Hn Hp'. assert (Ie : In e (map snd (uuids b))) by (apply in_snd; exists u; exact I).
        assert (INC : incl (P ++ bs) blocks) by (apply incl_app; assumption).
        destruct (WIT (strfy e)) as [(b' & d' & B' & E' & N' & Q')|(_ & W)].
        + destruct (ONE b' d' E') as (_ & _ & O3 & O4 & _). destruct (O4 _ N') as [C1|[C1|(e' & I' & Q'')]]; [congruence|contradiction|].
          assert (e' = e) by (apply (UNI b' b e' e (INC _ B') (INC _ B) I' Ie Q'')). subst e'.
          destruct (O3 e I' Hn Hp') as (x & Gx & Vx); [intros e2 I2 Q2; apply (UNI b' b' e2 e (INC _ B') (INC _ B') I2 I' Q2)|]. exists x. split; [rewrite Q'; exact Gx|exact Vx].
        + exfalso. destruct (W b B) as (d' & E' & Z). destruct (ONE b d' E') as (_ & _ & O3 & _). destruct (O3 e Ie Hn Hp') as (x & Gx & _); [intros e2 I2 Q2; apply (UNI b b e2 e (INC _ B) (INC _ B) I2 Ie Q2)|]. congruence. }
    assert (Ic : incl [circuit_block] blocks) by (intros z [<-|[]]; left; reflexivity).
    unfold M_Model.embed in Eg. destruct (embedding_fn h circuit_block params v) as [c|] eqn:Ec; [|discriminate].
    assert (CIRC : entries_ok_expr h params v circuit_block c).
    { apply (MERGE [] c c [circuit_block]); [intros z []|exact Ic|discriminate|intros _; exists circuit_block; split; [left; reflexivity|exact Ec]|discriminate|intros b b' [<-|[]] [<-|[]]; reflexivity|reflexivity|left; reflexivity]. }
    destruct observable as [obs|] eqn:Ob.
    - assert (Io : incl obs blocks) by (intros z Iz; unfold blocks; rewrite Ob; right; exact Iz).
      destruct (is_nested X v) eqn:Nv.
      + destruct (embed_all h obs params v []) as [d|] eqn:Ea; [|discriminate]. injection Eg as <-. exists c, d. split; [right; reflexivity|]. split; [exact CIRC|].
        intros b ob' Q Ib'. assert (ob' = obs) by congruence. subst ob'.
        apply (MERGE obs [] d []); [exact Io|intros z []|intros Z; cbn in Z; rewrite Z in Ib'; destruct Ib'|intros Z; congruence|reflexivity|intros b1 b2 []|exact Ea|exact Ib'].
      + destruct (embed_all h obs params v c) as [d|] eqn:Ea; [|discriminate]. injection Eg as <-. exists d, d. split; [left; split; reflexivity|].
        assert (F : forall b, In b ([circuit_block] ++ obs) -> entries_ok_expr h params v b d).
        { apply (MERGE obs c d [circuit_block]); [exact Io|exact Ic|discriminate|intros _; exists circuit_block; split; [left; reflexivity|exact Ec]|discriminate|intros b b' [<-|[]] [<-|[]]; reflexivity|exact Ea]. }
        split; [apply F; left; reflexivity|]. intros b ob' Q Ib'. assert (ob' = obs) by congruence. subst ob'. apply F. right. exact Ib'.
    - injection Eg as <-. exists c, c. split; [left; split; reflexivity|]. split; [exact CIRC|intros b obs Q; congruence].
  Qed.

  (** * The parameters over histories *)
  Lemma table b o : In b blocks -> ((exists u e, In (u, e) (uuid_to_expression b []) /\ occurs_e o e) <-> occurs o b).
  Proof.
    intros B. split.
    - intros (u & e & I & O). apply u2e_sound in I as [I|[]]. exact (entry_occurs u e o b I O).
    - intros O. apply occurs_entry in O as (u & e & En & O). destruct (u2e_complete b (proj1 (Forall_forall _ _) Hp b B) [] u e En (ex_intro _ o O)) as (e' & I). exists u, e'. split; [exact I|].
      apply u2e_sound in I as [I|[]]. rewrite <- (Hc b b u e e' B B En I). exact O.
  Qed.
  Lemma in_free h e s : In s (free h e) <-> exists o, occurs_e o e /\ s = symbol_of X initial is_time h o.
  Proof. unfold M_Model.free. rewrite in_map_iff. split; [intros (o & <- & I); exists o; split; [apply free_symbols_spec, I|reflexivity]|]. intros (o & O & ->). exists o. split; [reflexivity|apply free_symbols_spec, O]. Qed.
  Definition made_from (h : heap) (b : tblock) (k : string) (t : tensor) : Prop :=
    (exists o, occurs o b /\ ptrain (h o) = true /\ pname (h o) = k /\ t = (initial (pvalue (h o)), true)) \/
    (exists u e, In (u, e) (uuid_to_expression b []) /\ (forall o, ~ occurs_e o e) /\ strfy e = k /\ t = (number e, false)).
  Lemma in_update (d m : sdict tensor) k v : In (k, v) (update d m) -> In (k, v) d \/ In (k, v) m.
  Proof.
    assert (S : forall (d : sdict tensor) a w, In (k, v) (set d a w) -> In (k, v) d \/ (k, v) = (a, w)).
    { induction d0 as [|[a0 w0] d0 IH]; intros a w; cbn [set]; [intros [I|[]]; right; congruence|]. destruct (String.eqb_spec a0 a) as [->|N]; intros [I|I]; [right; congruence|left; right; exact I|left; left; exact I|]. destruct (IH a w I); [left; right; assumption|right; assumption]. }
    revert d. unfold update. induction m as [|[a w] m IH]; intros d I; [left; exact I|]. cbn [fold_left fst snd] in I. destruct (IH _ I) as [J|J]; [|right; right; exact J]. destruct (S _ _ _ J) as [K|K]; [left; exact K|right; left; congruence].
  Qed.
  Lemma init_from h b k t : In b blocks -> In (k, t) (init_params h b) -> made_from h b k t.
  Proof.
    intros B I. unfold M_Model.init_params, initial_params in I. apply in_update in I as [I|I]; [apply in_update in I as [I|I]; [apply in_update in I as [[]|I]|]|]; apply in_map_iff in I as (z & Q & I); injection Q as <- <-.
    - left. unfold trainable_symbols in I. apply filter_In in I as [I T]. apply HuS, in_flat_map in I as (e & Ie & Is). apply in_free in Is as (o & O & ->). apply in_snd in Ie as (u & Ie). exists o.
      split; [apply (proj1 (table b o B)); exists u, e; auto|]. split; [exact T|]. split; reflexivity.
    - right. unfold constant_expressions, unique_expressions in I. apply filter_In in I as [I N]. apply filter_In in I as [I _]. apply HuE, in_snd in I as (u & I). exists u, z. split; [exact I|]. split; [apply const_spec; left; exact N|]. split; reflexivity.
    - exfalso. unfold unique_const_matrices in I. apply filter_In in I as [_ I]. discriminate.
  Qed.
  Lemma init_has h b k : In b blocks -> (get (init_params h b) k <> None <->
    (exists o, occurs o b /\ ptrain (h o) = true /\ pname (h o) = k) \/ (exists u e, In (u, e) (uuid_to_expression b []) /\ (forall o, ~ occurs_e o e) /\ strfy e = k)).
  Proof.
    intros B. unfold M_Model.init_params.
    rewrite (proj1 (C20_initial_params pexpr tensor (free h) is_number is_array str_of hash_of no_string fn reshape expand one (fun e => (number e, false)) (fun e => (number e, false)) (fun v => (fst v, true)) uniqE uniqS HuE HuS (uuids b))).
    split.
    - intros [(e & s & Ie & Is & T & Q)|(e & Ie & Ce & Q)].
      + left. apply in_free in Is as (o & O & ->). apply in_snd in Ie as (u & Ie). exists o. split; [apply (proj1 (table b o B)); exists u, e; auto|]. split; [exact T|exact Q].
      + right. apply in_snd in Ie as (u & Ie). exists u, e. split; [exact Ie|]. split; [apply const_spec, Ce|exact Q].
    - intros [(o & O & T & Q)|(u & e & Ie & Ce & Q)].
      + left. apply (proj2 (table b o B)) in O as (u & e & Ie & O). exists e, (symbol_of X initial is_time h o). split; [apply in_snd; exists u; exact Ie|]. split; [apply in_free; exists o; auto|]. split; [exact T|exact Q].
      + right. exists e. split; [apply in_snd; exists u; exact Ie|]. split; [apply const_spec, Ce|exact Q].
  Qed.
  Lemma init_nd h b : NoDup (map fst (init_params h b)).
  Proof. unfold M_Model.init_params, initial_params. repeat apply (nodup_update tensor (fun v => v) (fun v => v) one (fun v => v)). constructor. Qed.
  Lemma has_update (d m : sdict tensor) k : get (update d m) k <> None <-> get d k <> None \/ get m k <> None.
  Proof.
    rewrite get_update. destruct (get (rev m) k) as [x|] eqn:G.
    - split; [intros _; right; intros Z; apply (proj2 (get_none_rev _ _)) in Z; congruence|discriminate].
    - apply (proj1 (get_none_rev _ _)) in G. rewrite G. tauto.
  Qed.
  Lemma converted_all h : (forall k t, In (k, t) (converted_params h) -> exists b, In b blocks /\ made_from h b k t) /\ (forall k, get (converted_params h) k <> None <-> exists b, In b blocks /\ get (init_params h b) k <> None) /\ NoDup (map fst (converted_params h)).
  Proof.
    unfold M_Model.converted_params.
    assert (G : forall bs acc (P : list tblock), incl P blocks -> incl bs blocks ->
      (forall k t, In (k, t) acc -> exists b, In b blocks /\ made_from h b k t) -> (forall k, get acc k <> None <-> exists b, In b P /\ get (init_params h b) k <> None) -> NoDup (map fst acc) ->
      let d := fold_left (fun acc b => update acc (init_params h b)) bs acc in
      (forall k t, In (k, t) d -> exists b, In b blocks /\ made_from h b k t) /\ (forall k, get d k <> None <-> exists b, In b (P ++ bs) /\ get (init_params h b) k <> None) /\ NoDup (map fst d)).
    { induction bs as [|b bs IH]; intros acc P IP Ib H1 H2 H3; cbn [fold_left].
      - rewrite app_nil_r. auto.
      - destruct (IH (update acc (init_params h b)) (P ++ [b])) as (A & B & D).
        + apply incl_app; [exact IP|]. intros z [<-|[]]. apply Ib. left. reflexivity.
        + intros z Iz. apply Ib. right. exact Iz.
        + intros k t I. apply in_update in I as [I|I]; [apply H1, I|]. assert (Bb : In b blocks) by (apply Ib; left; reflexivity). exists b. split; [exact Bb|]. apply init_from; assumption.
        + intros k. rewrite has_update, H2. split.
          * intros [(b' & I & N)|N]; [exists b'; split; [apply in_or_app; left; exact I|exact N]|exists b; split; [apply in_or_app; right; left; reflexivity|exact N]].
          * intros (b' & I & N). apply in_app_iff in I as [I|[<-|[]]]; [left; exists b'; auto|right; exact N].
        + apply (nodup_update tensor (fun v => v) (fun v => v) one (fun v => v)). exact H3.
        + rewrite <- app_assoc in B. auto. }
    change blocks with (([circuit_block] ++ observables observable) : list tblock). apply (G (observables observable) (init_params h circuit_block) [circuit_block]).
    - intros z [<-|[]]. left. reflexivity.
    - intros z I. right. exact I.
    - intros k t I. exists circuit_block. split; [left; reflexivity|]. apply init_from; [left; reflexivity|exact I].
    - intros k. split; [intros N; exists circuit_block; split; [left; reflexivity|exact N]|intros (b & [<-|[]] & N); exact N].
    - apply init_nd.
  Qed.
  Lemma perm_get (d : sdict tensor) k : NoDup (map fst d) -> get (parameter_dict d) k = get d k.
  Proof.
    intros N. assert (N' : NoDup (map fst (parameter_dict d))) by (apply (Permutation_NoDup (l := map fst d)); [apply Permutation_sym, Permutation_map, Hpd|exact N]).
    destruct (get d k) as [x|] eqn:G.
    - apply In_get; [exact N'|]. apply (Permutation_in _ (Permutation_sym (Hpd d))). apply get_In, G.
    - apply get_none. apply get_none in G. intros I. apply G. apply (Permutation_in _ (Permutation_map fst (Hpd d))), I.
  Qed.
  (** What holds of the parameters of a model at every moment: a parameter with gradients is a trainable parameter object in use, one
      without is a constant and holds its value; and all of them are there, once. *)
  Definition sound (m : model) : Prop :=
    (forall k x, In (k, (x, true)) (m_params m) -> exists o, used o /\ ptrain (m_heap m o) = true /\ pname (m_heap m o) = k) /\
    (forall k x, In (k, (x, false)) (m_params m) -> exists e, constant_of e /\ strfy e = k /\ x = number e) /\
    (forall o, used o -> ptrain (m_heap m o) = true -> In (pname (m_heap m o)) (map fst (m_params m))) /\
    (forall e, constant_of e -> In (strfy e) (map fst (m_params m))) /\
    NoDup (map fst (m_params m)).
  Lemma in_keys (d : sdict tensor) k : In k (map fst d) <-> get d k <> None.
  Proof. rewrite get_none. destruct (in_dec string_dec k (map fst d)); tauto. Qed.
  Lemma fresh_sound h n i : sound (Model X Noise h (parameter_dict (converted_params h)) n i).
  Proof.
    destruct (converted_all h) as (A & B & D). unfold sound. cbn [M_Model.m_heap M_Model.m_params].
    assert (Mem : forall k t, In (k, t) (parameter_dict (converted_params h)) -> exists b, In b blocks /\ made_from h b k t) by (intros k t I; apply A; apply (Permutation_in _ (Hpd _)), I).
    assert (Keys : forall k, In k (map fst (parameter_dict (converted_params h))) <-> exists b, In b blocks /\ get (init_params h b) k <> None) by (intros k; rewrite in_keys, perm_get by exact D; apply B).
    split; [|split; [|split; [|split]]].
    - intros k x I. destruct (Mem _ _ I) as (b & Ib & [(o & O & T & Q & _)|(u & e & _ & _ & _ & Z)]); [|discriminate]. exists o. split; [exists b; auto|]. auto.
    - intros k x I. destruct (Mem _ _ I) as (b & Ib & [(o & _ & _ & _ & Z)|(u & e & Ie & Ce & Q & Z)]); [discriminate|]. exists e. split; [exists b, u; auto|]. split; [exact Q|congruence].
    - intros o (b & Ib & O) T. apply Keys. exists b. split; [exact Ib|]. apply init_has; [exact Ib|]. left. exists o. auto.
    - intros e (b & u & Ib & Ie & Ce). apply Keys. exists b. split; [exact Ib|]. apply init_has; [exact Ib|]. right. exists u, e. auto.
    - apply (Permutation_NoDup (l := map fst (converted_params h))); [apply Permutation_sym, Permutation_map, Hpd|exact D].
  Qed.
  Lemma consistent b : In b blocks -> uuids_consistent b.
  Proof. intros B u e e' H1 H2. exact (Hc b b u e e' B B H1 H2). Qed.
  Definition selected (names : list string) (h : heap) (o : nat) : Prop := names = [] \/ In (pname (h o)) names.
  Lemma flags_all value names bs : incl bs blocks -> forall h, exists h', fold_left (fun oh b => match oh with Some h => option_map fst (set_trainable [b] names value true h) | None => None end) bs (Some h) = Some h' /\
    forall o, pname (h' o) = pname (h o) /\ pvalue (h' o) = pvalue (h o) /\
      ((exists b, In b bs /\ occurs o b) -> selected names h o -> ptrain (h' o) = value) /\
      (~ ((exists b, In b bs /\ occurs o b) /\ selected names h o) -> ptrain (h' o) = ptrain (h o)) /\ (ptrain (h' o) = value \/ ptrain (h' o) = ptrain (h o)).
  Proof.
    induction bs as [|b bs IH]; intros Ib h; cbn [fold_left].
    - exists h. split; [reflexivity|]. intros o. repeat (split; [reflexivity|]). split; [intros (b & [] & _)|]. split; [reflexivity|right; reflexivity].
    - assert (Bb : In b blocks) by (apply Ib; left; reflexivity). destruct (C11_set_trainable [b] names value h) as (h1 & E1 & S1).
      { discriminate. } { constructor; [exact (proj1 (Forall_forall _ _) Hp b Bb)|constructor]. } { constructor; [apply consistent, Bb|constructor]. }
      rewrite E1. cbn [option_map fst]. destruct (IH (fun z Iz => Ib z (or_intror Iz)) h1) as (h2 & E2 & S2). exists h2. split; [exact E2|]. intros o.
      destruct (S1 o) as (N1 & V1 & T1 & U1). destruct (S2 o) as (N2 & V2 & T2 & U2 & D2). unfold selected in *. rewrite N1 in T2, U2. split; [congruence|]. split; [congruence|].
      assert (D1 : ptrain (h1 o) = value \/ ptrain (h1 o) = ptrain (h o)).
      { destruct (Bool.bool_dec (ptrain (h1 o)) value) as [Q|Q]; [left; exact Q|]. right. apply U1. intros Z. apply Q, T1, Z. }
      split; [|split].
      + intros (b' & [<-|I] & O) Hs; [|apply T2; [exists b'; auto|exact Hs]]. assert (ptrain (h1 o) = value) by (apply T1; split; [exists b; split; [left; reflexivity|exact O]|exact Hs]). destruct D2 as [D2|D2]; congruence.
      + intros Hn. rewrite U2; [apply U1|]; intros [(b' & I & O) Hs]; apply Hn; (split; [|exact Hs]); exists b'; (split; [|exact O]); [destruct I as [<-|[]]; left; reflexivity|right; exact I].
      + destruct D2 as [D2|D2]; [left; exact D2|]. rewrite D2. exact D1.
  Qed.
  (** set_as_variational and set_as_fixed: exactly the parameter objects in use with a selected name (all of them, when no name is
      given) get the flag; the parameters are made afresh from the objects, with their initial values; noise and inputs stay. *)
  Theorem C59_set : forall value m names, exists m', step m (if value : bool then SetAsVariational _ _ _ _ _ _ names else SetAsFixed _ _ _ _ _ _ names) = (m', Done Res) /\
    (forall o, pname (m_heap m' o) = pname (m_heap m o) /\ pvalue (m_heap m' o) = pvalue (m_heap m o) /\
       (used o -> selected names (m_heap m) o -> ptrain (m_heap m' o) = value) /\ (~ (used o /\ selected names (m_heap m) o) -> ptrain (m_heap m' o) = ptrain (m_heap m o))) /\
    m_noise m' = m_noise m /\ m_inputs m' = m_inputs m /\ sound m' /\
    (forall k x, In (k, x) (vparams m') -> exists o, used o /\ ptrain (m_heap m' o) = true /\ pname (m_heap m' o) = k /\ x = initial (pvalue (m_heap m' o))).
  Proof.
    intros value m names. destruct (flags_all value names (observables observable ++ [circuit_block])) with (h := m_heap m) as (h' & E & S).
    { intros z I. apply in_app_iff in I as [I|[<-|[]]]; [right; exact I|left; reflexivity]. }
    exists (Model X Noise h' (parameter_dict (converted_params h')) (m_noise m) (m_inputs m)). split; [|split; [|split; [|split; [|split]]]].
    - destruct value; cbn [M_Model.step]; unfold M_Model.set_flags_of; rewrite E; reflexivity.
    - assert (U : forall o, used o <-> exists b, In b (observables observable ++ [circuit_block]) /\ occurs o b).
      { intros o. unfold used. split; intros (b & I & O); exists b; (split; [|exact O]); [destruct I as [<-|I]; apply in_or_app; [right; left; reflexivity|left; exact I]|apply in_app_iff in I as [I|[<-|[]]]; [right; exact I|left; reflexivity]]. }
      intros o. cbn [M_Model.m_heap]. destruct (S o) as (N & V & T & F & _). repeat (split; [assumption|]). split; [intros Uo; apply T, U, Uo|]. intros Hn. apply F. intros [Uo Hs]. apply Hn. split; [apply U, Uo|exact Hs].
    - reflexivity.
    - reflexivity.
    - apply fresh_sound.
    - intros k x I. unfold M_Model.vparams in I. apply in_map_iff in I as ([k' [x' g]] & Q & I). cbn in Q. injection Q as <- <-. apply filter_In in I as [I G]. cbn in G. subst g. cbn [M_Model.m_heap M_Model.m_params] in *.
      apply (Permutation_in _ (Hpd _)) in I. destruct (proj1 (converted_all h') _ _ I) as (b & Ib & [(o & O & T & Q & Z)|(u & e & _ & _ & _ & Z)]); [|discriminate]. exists o. split; [exists b; auto|]. repeat (split; [assumption|]). congruence.
  Qed.

  (** Whatever is called on a model, its parameters stay those of the circuit and of the observables. *)
  Theorem C59_history : forall h noise cs, let m := exec (new_model h noise) cs in
    sound m /\ (forall o, pname (m_heap m o) = pname (h o) /\ pvalue (m_heap m o) = pvalue (h o) /\ (~ used o -> ptrain (m_heap m o) = ptrain (h o))) /\ m_inputs m = m_inputs (new_model h noise).
  Proof.
    intros h noise cs. cbv zeta. unfold M_Model.exec.
    assert (G : forall m, sound m -> let m' := fold_left (fun m c => fst (step m c)) cs m in sound m' /\ (forall o, pname (m_heap m' o) = pname (m_heap m o) /\ pvalue (m_heap m' o) = pvalue (m_heap m o) /\ (~ used o -> ptrain (m_heap m' o) = ptrain (m_heap m o))) /\ m_inputs m' = m_inputs m).
    { induction cs as [|c cs' IH]; intros m Sm; cbn [fold_left]; [split; [exact Sm|split; [intros o; auto|reflexivity]]|].
      assert (One : let m1 := fst (step m c) in sound m1 /\ (forall o, pname (m_heap m1 o) = pname (m_heap m o) /\ pvalue (m_heap m1 o) = pvalue (m_heap m o) /\ (~ used o -> ptrain (m_heap m1 o) = ptrain (m_heap m o))) /\ m_inputs m1 = m_inputs m).
      { destruct c as [v a|v n k a|v o me n k a|vs|f|l|l].
        - cbn. split; [exact Sm|split; [intros o; auto|reflexivity]].
        - cbn. split; [exact Sm|split; [intros o; auto|reflexivity]].
        - cbn [M_Model.step]. change (let m1 := fst (match expectation m v o me n k a with Some (m', r) => (m', Got Res r) | None => (m, Raised Res) end) in sound m1 /\ (forall o, pname (m_heap m1 o) = pname (m_heap m o) /\ pvalue (m_heap m1 o) = pvalue (m_heap m o) /\ (~ used o -> ptrain (m_heap m1 o) = ptrain (m_heap m o))) /\ m_inputs m1 = m_inputs m).
          destruct (expectation m v o me n k a) as [[m' r]|] eqn:Q; cbn [fst]; [|split; [exact Sm|split; [intros o'; auto|reflexivity]]].
          assert (Z : m_heap m' = m_heap m /\ m_params m' = m_params m /\ m_inputs m' = m_inputs m).
          { unfold M_Model.expectation in Q. destruct o, observable; try discriminate; match type of Q with context [match ?x with Some _ => Some _ | None => None end] => destruct x end; try discriminate; injection Q as <- _; destruct n; auto. }
          destruct Z as (Z1 & Z2 & Z3). unfold sound. rewrite Z1, Z2, Z3. split; [exact Sm|split; [intros o'; auto|reflexivity]].
        - destruct (C59_reset m vs) as [R1 R2]. destruct (Nat.eq_dec (List.length vs) (List.length (vparams m))) as [L|L].
          + destruct (R1 L) as (m' & E & V & K & Hh & Hn & Hi & F & Ks). rewrite E. cbn [fst]. cbv zeta. rewrite Hh, Hi. split; [|split; [intros o; auto|reflexivity]].
            destruct Sm as (S1 & S2 & S3 & S4 & S5). unfold sound. rewrite Hh, Ks. split; [|split; [|auto]].
            * intros k x I. assert (I' : In k (map fst (vparams m'))).
              { apply in_map_iff. exists (k, x). split; [reflexivity|]. unfold M_Model.vparams. apply in_map_iff. exists (k, (x, true)). split; [reflexivity|]. apply filter_In. split; [exact I|reflexivity]. }
              rewrite K in I'. apply in_map_iff in I' as ([k' x'] & Q & I'). cbn in Q. subst k'. unfold M_Model.vparams in I'. apply in_map_iff in I' as ([k2 [x2 g]] & Q & I'). cbn in Q. injection Q as -> ->. apply filter_In in I' as [I' G]. cbn in G. subst g. exact (S1 _ _ I').
            * intros k x I. apply F in I. exact (S2 _ _ I).
          + rewrite (R2 L). cbn [fst]. split; [exact Sm|split; [intros o; auto|reflexivity]].
        - cbn [M_Model.step fst]. cbv zeta. unfold optimise, with_params, sound. cbn [M_Model.m_heap M_Model.m_params M_Model.m_inputs]. split; [|split; [intros o; auto|reflexivity]].
          destruct Sm as (S1 & S2 & S3 & S4 & S5).
          set (p' := map _ (m_params m)). assert (Ks : map (@fst string tensor) p' = map fst (m_params m)) by (unfold p'; rewrite map_map; apply map_ext; intros [k [x g]]; destruct g; reflexivity).
          rewrite Ks. unfold p'. split; [|split; [|auto]].
          + intros k x I. apply in_map_iff in I as ([k' [x' g]] & Q & I). destruct g; cbn in Q; [|discriminate]. injection Q as <- <-. exact (S1 _ _ I).
          + intros k x I. apply in_map_iff in I as ([k' [x' g]] & Q & I). destruct g; cbn in Q; [discriminate|]. injection Q as <- <-. exact (S2 _ _ I).
        - destruct (C59_set true m l) as (m' & E & S & _ & Hi & So & _). cbn [fst] in *. rewrite E. cbn [fst]. split; [exact So|]. split; [|exact Hi]. intros o. destruct (S o) as (A & B & D & F). repeat (split; [assumption|]). intros Hn. apply F. tauto.
        - destruct (C59_set false m l) as (m' & E & S & _ & Hi & So & _). cbn [fst] in *. rewrite E. cbn [fst]. split; [exact So|]. split; [|exact Hi]. intros o. destruct (S o) as (A & B & D & F). repeat (split; [assumption|]). intros Hn. apply F. tauto. }
      destruct One as (A & B & D). destruct (IH _ A) as (A' & B' & D'). split; [exact A'|]. split; [|congruence]. intros o. destruct (B o) as (B1 & B2 & B3), (B' o) as (C1 & C2 & C3). split; [congruence|]. split; [congruence|]. intros N. rewrite C3, B3 by exact N. reflexivity. }
    destruct (G (new_model h noise) (fresh_sound _ _ _)) as (A & B & D). split; [exact A|]. split; [exact B|exact D].
  Qed.

  (** * When a run is defined *)
  (** No parameter in use is named like a constant of the model. *)
  Definition names_clear (h : heap) : Prop := forall o e, used o -> constant_of e -> pname (h o) <> strfy e.
  Lemma fn_defined h b params v : dicts tensor v -> ((exists d, embedding_fn h b params v = Some d) <->
    inputs_ok v /\ (forall e, In e (map snd (uuids b)) -> ~ constant pexpr is_number is_array e -> forall s, In s (free h e) -> exists x, source one params v s x) /\
     (forall e, In e (map snd (uuids b)) -> constant pexpr is_number is_array e -> get params (strfy e) <> None)).
  Proof.
    intros Di. pose proof (C20_defined pexpr tensor eqE (free h) is_number is_array str_of hash_of no_string fn reshape expand one (fun e => (number e, false)) (fun e => (number e, false)) (fun v => (fst v, true)) uniqE HuE (uuids b) params v Di) as D.
    unfold M_Model.embedding_fn. destruct use_gate_params; [exact D|]. rewrite <- D. unfold embedding_expr, embedding_gate. destruct (effective_inputs tensor v) as [d|] eqn:Ef; [|tauto].
    destruct (embedded _ _ _ _ _ _ _ _ _ _ _ _ _ _ _ _) as [r|] eqn:Em; [|split; intros [? Q]; discriminate].
    split; intros _; [|eexists; reflexivity].
    apply (gate_entries_defined pexpr tensor eqE). intros e I.
    destruct (embedded_spec pexpr tensor eqE (free h) is_number is_array str_of hash_of no_string fn reshape expand one (fun e => (number e, false)) (fun e => (number e, false)) (fun v => (fst v, true)) uniqE HuE (uuids b) params v d r (effective_spec tensor v d Di Ef) Em e I) as (x & Gx & _). congruence.
  Qed.

  Lemma all_defined h params v bs : forall acc, (exists d, embed_all h bs params v acc = Some d) <-> forall b, In b bs -> exists d, embedding_fn h b params v = Some d.
  Proof.
    induction bs as [|b bs IH]; intros acc; cbn [M_Model.embed_all]; [split; [intros _ b []|intros _; eexists; reflexivity]|].
    destruct (embedding_fn h b params v) as [d|] eqn:E.
    - rewrite IH. split; [intros H b' [<-|I]; [exists d; exact E|apply H, I]|intros H b' I; apply H; right; exact I].
    - split; [intros [? Q]; discriminate|]. intros H. destruct (H b (or_introl eq_refl)) as [? Q]. congruence.
  Qed.
  Lemma embed_defined h params v : (exists g, embed h params v = Some g) <-> forall b, In b blocks -> exists d, embedding_fn h b params v = Some d.
  Proof.
    unfold M_Model.embed, blocks. destruct (embedding_fn h circuit_block params v) as [c|] eqn:Ec.
    2: { split; [intros [? Q]; discriminate|]. intros H. destruct (H circuit_block (or_introl eq_refl)) as [? Q]. congruence. }
    destruct observable as [obs|].
    - assert (K : forall acc, (exists d, embed_all h obs params v acc = Some d) <-> (forall b, In b (circuit_block :: obs) -> exists d, embedding_fn h b params v = Some d)).
      { intros acc. rewrite all_defined. split; [intros H b [<-|I]; [exists c; exact Ec|apply H, I]|intros H b I; apply H; right; exact I]. }
      destruct (is_nested X v); [rewrite <- (K [])|rewrite <- (K c)]; destruct (embed_all _ _ _ _ _) as [d|]; cbn; (split; [intros [? Q]|intros [? Q]]); try discriminate; eexists; reflexivity.
    - split; [intros _ b [<-|[]]; exists c; exact Ec|intros _; eexists; reflexivity].
  Qed.
  (** After any calls, running the circuit needs exactly: inputs flat or under "circuit" and "observables", and a value for every
      parameter in use that is neither a time nor has the name of a trainable one. *)
  Theorem C59_needs : forall h noise cs v a, names_clear h -> dicts tensor v -> let m := exec (new_model h noise) cs in
    (run m v a <> None <->
     inputs_ok v /\ forall o, used o -> input_value v (pname (h o)) <> None \/ is_time o = true \/ exists o', used o' /\ ptrain (m_heap m o') = true /\ pname (h o') = pname (h o)).
  Proof.
    intros h noise cs v a Cl Di m. destruct (C59_history h noise cs) as ((S1 & S2 & S3 & S4 & S5) & Nm & _). fold m in S1, S2, S3, S4, S5, Nm.
    assert (R : run m v a <> None <-> exists g, embed (m_heap m) (m_params m) v = Some g).
    { unfold M_Model.run. destruct (embed (m_heap m) (m_params m) v) as [g|]; cbn; split; [intros _; eexists; reflexivity|discriminate|congruence|intros [? Q]; discriminate]. }
    assert (Par : forall o, used o -> (get (m_params m) (pname (h o)) <> None <-> exists o', used o' /\ ptrain (m_heap m o') = true /\ pname (h o') = pname (h o))).
    { intros o Uo. rewrite <- in_keys. split.
      - intros I. apply in_map_iff in I as ([k [x g]] & Q & I). cbn in Q. subst k. destruct g.
        + destruct (S1 _ _ I) as (o' & U' & T' & Q'). exists o'. rewrite (proj1 (Nm o')) in Q'. auto.
        + exfalso. destruct (S2 _ _ I) as (e & Ce & Q' & _). exact (Cl o e Uo Ce (eq_sym Q')).
      - intros (o' & U' & T' & Q'). rewrite <- Q', <- (proj1 (Nm o')). apply S3; assumption. }
    rewrite R, embed_defined. split.
    - intros H. split; [destruct (H circuit_block (or_introl eq_refl)) as [d Q]; apply (fn_defined (m_heap m) circuit_block (m_params m) v Di); exists d; exact Q|].
      intros o Uo. pose proof Uo as (b & Ib & O). apply (proj2 (table b o Ib)) in O as (u & e & Ie & O). destruct (proj1 (fn_defined (m_heap m) b (m_params m) v Di) (H b Ib)) as (_ & H2 & _).
      destruct (H2 e) with (s := symbol_of X initial is_time (m_heap m) o) as [x Sx].
      { apply in_snd. exists u. exact Ie. } { intros Ce. apply const_spec with (o := o) in Ce. exact (Ce O). } { apply in_free. exists o. auto. }
      inversion Sx as [x' Q|x' Q1 Q2|Q1 Q2 Q3]; cbn [s_name s_time symbol_of] in *; rewrite (proj1 (Nm o)) in *; [left; congruence| |right; left; exact Q3].
      right. right. apply Par; [exact Uo|congruence].
    - intros [Ok H] b Ib. apply fn_defined; [exact Di|]. split; [exact Ok|]. split.
      + intros e Ie Ne s Is. apply in_free in Is as (o & O & ->). apply in_snd in Ie as (u & Ie). assert (Uo : used o) by (exists b; split; [exact Ib|apply (proj1 (table b o Ib)); exists u, e; auto]).
        destruct (input_value v (pname (m_heap m o))) as [x|] eqn:Iv; [exists x; apply from_inputs; exact Iv|]. destruct (get (m_params m) (pname (m_heap m o))) as [x|] eqn:Gp; [exists x; apply from_params; assumption|].
        exists one. apply from_time; [exact Iv|exact Gp|]. cbn [s_time symbol_of]. rewrite (proj1 (Nm o)) in Iv, Gp. destruct (H o Uo) as [Z|[Z|Z]]; [congruence|exact Z|]. apply (Par o Uo) in Z. congruence.
      + intros e Ie Ce. apply in_keys, S4. apply in_snd in Ie as (u & Ie). exists b, u. split; [exact Ib|]. split; [exact Ie|]. apply const_spec, Ce.
  Qed.
  (** The reported inputs are the names of the feature parameters in use, each once. *)
  Theorem C59_inputs : forall h noise, NoDup (m_inputs (new_model h noise)) /\ (forall k, In k (m_inputs (new_model h noise)) <-> exists o, used o /\ ptrain (h o) = false /\ pname (h o) = k).
  Proof.
    intros h noise. cbn [M_Model.m_inputs M_Model.new_model]. unfold feature_names. split; [apply NoDup_rev, NoDup_nodup|]. intros k. rewrite <- in_rev, nodup_In, <- in_rev, in_map_iff. split.
    - intros (o & <- & I). apply filter_In in I as [I T]. exists o. apply negb_true_iff in T. split; [|auto]. unfold all_symbols in I. apply in_flat_map in I as (b & B & I). apply in_flat_map in I as ([u e] & Ie & I). cbn [snd] in I.
      exists b. split; [exact B|]. apply (proj1 (table b o B)). exists u, e. split; [exact Ie|apply free_symbols_spec, I].
    - intros (o & (b & B & O) & T & Q). exists o. split; [exact Q|]. apply filter_In. split; [|rewrite T; reflexivity]. unfold all_symbols. apply in_flat_map. exists b. split; [exact B|].
      apply (proj2 (table b o B)) in O as (u & e & Ie & O). apply in_flat_map. exists (u, e). split; [exact Ie|apply free_symbols_spec, O].
  Qed.
End T.

(** * A model *)
Fixpoint pexpr_dec (a b : pexpr) {struct a} : {a = b} + {a <> b}.
Proof.
  destruct a as [k|o|f l], b as [k'|o'|f' l']; try (right; discriminate).
  - destruct (Nat.eq_dec k k'); [left; congruence|right; congruence].
  - destruct (Nat.eq_dec o o'); [left; congruence|right; congruence].
  - destruct (string_dec f f') as [->|N]; [|right; congruence]. destruct (list_eq_dec pexpr_dec l l') as [->|N]; [left; reflexivity|right; congruence].
Defined.
Fixpoint ticks (n : nat) : string := match n with O => "" | S n => String "|"%char (ticks n) end.
Lemma ticks_inj n : forall n', ticks n = ticks n' -> n = n'.
Proof. induction n as [|n IH]; intros [|n']; cbn; intros Q; try discriminate; [reflexivity|]. injection Q as Q. f_equal. apply IH, Q. Qed.

(** RX("theta") RX("x") RX(3) with the observable w * Z; "theta" and "w" are variational with initial values 5 and 7, "x" is a feature. *)
Definition case_circuit : tblock := TComp [TParam [(0, PSym 0)]; TParam [(1, PSym 1)]; TParam [(2, PNum 3)]].
Definition case_obs : option (list tblock) := Some [TScale TPrim 3 (PSym 2)].
Definition case_objects : heap := fun o => match o with 0 => mkP "theta" true 5 | 1 => mkP "x" false 0 | _ => mkP "w" true 7 end.
Definition case_str_of (e : pexpr) : string := match e with PSym 0 => "theta" | PSym 1 => "x" | PSym 2 => "w" | _ => "?" end.
Definition case_hash_of (_ : pexpr) : string := "0".
Definition case_fn (_ : pexpr) (kw : sdict (nat * bool)) : nat * bool := (list_sum (map (fun kv => fst (snd kv)) kw), false).
Definition case_ident (t : nat * bool) := t.
Definition case_number (e : pexpr) : nat := match e with PNum k => k | _ => 0 end.
(** The backend's answer: what it was handed. *)
Definition case_answer : Type := (option nat * inputs_t (nat * bool))%type.
Definition case_b_run (g : inputs_t (nat * bool)) (_ : unit) : case_answer := (None, g).
Definition case_b_sample (g : inputs_t (nat * bool)) (n : option nat) (_ : option unit) (_ : unit) : case_answer := (n, g).
Definition case_b_expectation (_ : option unit) (g : inputs_t (nat * bool)) (_ : option unit) (n : option nat) (_ : option unit) (_ : unit) : case_answer := (n, g).
Definition case_step ugp := step nat nat unit unit unit unit case_answer pexpr_dec case_str_of case_hash_of case_fn case_ident case_ident (1, false) case_number (fun v => v) (fun _ => false) ticks (fun l => l) (fun l => l) (fun d => d) ugp case_b_run case_b_sample case_b_expectation case_circuit case_obs None None.
Definition case_exec ugp := exec nat nat unit unit unit unit case_answer pexpr_dec case_str_of case_hash_of case_fn case_ident case_ident (1, false) case_number (fun v => v) (fun _ => false) ticks (fun l => l) (fun l => l) (fun d => d) ugp case_b_run case_b_sample case_b_expectation case_circuit case_obs None None.
Definition case_start := new_model nat nat case_str_of case_hash_of case_number (fun v => v) (fun _ => false) ticks (fun l => l) (fun l => l) (fun d => d) case_circuit case_obs case_objects None.
Definition case_x_is (v : nat) : inputs_t (nat * bool) := Flat [("x", (v, false))].
Definition case_Run v := Run nat nat unit unit unit unit v tt.
Definition case_Expect v n := Expectation nat nat unit unit unit unit v None None n None tt.
Definition case_Reset vs := ResetVparams nat nat unit unit unit unit vs.
Definition case_Fix names := SetAsFixed nat nat unit unit unit unit names.
Definition case_Vary names := SetAsVariational nat nat unit unit unit unit names.

Lemma case_plain : Forall plain_controls (blocks case_circuit case_obs).
Proof. repeat constructor. Qed.
Lemma case_unique b b' u e e' : In b (blocks case_circuit case_obs) -> In b' (blocks case_circuit case_obs) -> entry u e b -> entry u e' b' -> e = e'.
Proof.
  intros B B' H H'. assert (K : forall b u e, In b (blocks case_circuit case_obs) -> entry u e b -> In (u, e) [(0, PSym 0); (1, PSym 1); (2, PNum 3); (3, PSym 2)]).
  { clear. intros b u e [<-|[<-|[]]] H; inversion H; subst; [|cbn; auto|match goal with J : entry _ _ TPrim |- _ => inversion J end].
    match goal with J : In _ _ |- _ => destruct J as [<-|[<-|[<-|[]]]] end; match goal with J : entry _ _ (TParam _) |- _ => inversion J; subst end; cbn in *; tauto. }
  apply (K _ _ _ B) in H. apply (K _ _ _ B') in H'. cbn in H, H'.
  destruct H as [H|[H|[H|[H|[]]]]], H' as [H'|[H'|[H'|[H'|[]]]]]; congruence.
Qed.
Lemma case_clear : names_clear case_str_of case_hash_of case_circuit case_obs case_objects.
Proof.
  intros o e _ (b & u & [<-|[<-|[]]] & I & N) Q; cbn in I.
  - destruct I as [I|[I|[I|[]]]]; injection I as <- <-; [exact (N 0 (oc_sym 0))|exact (N 1 (oc_sym 1))|]. destruct o as [|[|o]]; discriminate.
  - destruct I as [I|[]]. injection I as <- <-. exact (N 2 (oc_sym 2)).
Qed.
Lemma case_distinct : distinct_names case_str_of case_hash_of case_circuit case_obs.
Proof.
  intros b b' u u' e e' B B' I I' Q. assert (K : forall b u e, In b (blocks case_circuit case_obs) -> In (u, e) (uuid_to_expression b []) -> In e [PSym 0; PSym 1; PNum 3; PSym 2]).
  { clear. intros b u e [<-|[<-|[]]]; cbn; intuition congruence. }
  apply (K _ _ _ B) in I. apply (K _ _ _ B') in I'. cbn in I, I'.
  destruct I as [<-|[<-|[<-|[<-|[]]]]], I' as [<-|[<-|[<-|[<-|[]]]]]; try reflexivity; discriminate.
Qed.
Lemma case_run_flat v : dicts (nat * bool) (case_x_is v).
Proof. cbn. repeat constructor. intros []. Qed.


(** The hypotheses of the theorems are met by this model: it runs, with reset values, and the fixed theta is needed afterwards. *)
Example C59_case :
  snd (case_step true (case_exec true case_start [case_Reset [20; 30]]) (case_Run (case_x_is 4))) =
    Got case_answer (None, Flat [("", (20, false)); ("|", (4, false)); ("||", (3, false)); ("|||", (30, false))]) /\
  snd (case_step false (case_exec false case_start [case_Reset [20; 30]]) (case_Run (case_x_is 4))) =
    Got case_answer (None, Flat [("theta", (20, true)); ("x", (4, false)); ("fix_0", (3, false)); ("w", (30, true))]) /\
  (forall ugp, snd (case_step ugp case_start (case_Reset [20])) = Raised case_answer) /\
  vparams nat nat (case_exec true case_start [case_Vary ["x"]]) = [("theta", 5); ("x", 0); ("w", 7)].
Proof. repeat split; try reflexivity. all: vm_compute; reflexivity. Qed.
Example C59_needs_case : forall cs, let m := case_exec true case_start cs in
  run nat nat unit case_answer pexpr_dec case_str_of case_hash_of case_fn case_ident case_ident (1, false) (fun v => v) (fun _ => false) ticks (fun l => l) true case_b_run case_circuit case_obs m (case_x_is 4) tt <> None <->
    inputs_ok (case_x_is 4) /\ forall o, used case_circuit case_obs o -> input_value (case_x_is 4) (pname (case_objects o)) <> None \/ false = true \/
      exists o', used case_circuit case_obs o' /\ ptrain (m_heap nat nat m o') = true /\ pname (case_objects o') = pname (case_objects o).
Proof.
  intros cs. apply (C59_needs nat nat unit unit unit unit case_answer pexpr_dec case_str_of case_hash_of case_fn case_ident case_ident (1, false) case_number (fun v => v) (fun _ => false) ticks (fun l => l) (fun l => l) (fun d => d) true
    case_b_run case_b_sample case_b_expectation case_circuit case_obs None None).
  all: try (intros; tauto); try exact ticks_inj; try exact case_plain; try exact case_unique; try exact case_clear; try apply case_run_flat; try exact true.
  intros d. apply Permutation_refl.
Qed.

(** A noise model passed to one call of expectation is used by the later calls too. *)
Theorem C59_noise_refuted : forall ugp, exists m c c', (exists v n, c = case_Expect v n) /\ (exists v, c' = case_Expect v None) /\ snd (case_step ugp (fst (case_step ugp m c)) c') <> snd (case_step ugp m c').
Proof.
  intros ugp. exists case_start, (case_Expect (case_x_is 4) (Some 9)), (case_Expect (case_x_is 4) None). split; [eauto|]. split; [eauto|]. destruct ugp; vm_compute; discriminate.
Qed.
(** Fixing one parameter discards what the others have learnt: they return to their initial values. *)
Theorem C59_training_refuted : forall ugp, exists m names k x y, ~ In k names /\ In (k, x) (vparams nat nat m) /\ In (k, y) (vparams nat nat (fst (case_step ugp m (case_Fix names)))) /\ x <> y.
Proof.
  intros ugp. exists (case_exec ugp case_start [case_Reset [20; 30]]), ["w"], "theta", 20, 5. split; [cbn; intuition congruence|]. split; [destruct ugp; vm_compute; auto|]. split; [destruct ugp; vm_compute; auto|discriminate].
Qed.
(** Fixing the parameters of a model that runs makes the same run fail: a fixed parameter is not frozen at its value but becomes an input. *)
Theorem C59_fixed_refuted : forall ugp, exists m v r, snd (case_step ugp m (case_Run v)) = Got case_answer r /\ snd (case_step ugp (fst (case_step ugp m (case_Fix []))) (case_Run v)) = Raised case_answer.
Proof. intros ugp. exists case_start, (case_x_is 4). destruct ugp; eexists; vm_compute; split; reflexivity. Qed.
(** The inputs of the model are not updated: after making the only feature variational it is still reported as an input. *)
Theorem C59_inputs_refuted : forall ugp, exists m names, let m' := fst (case_step ugp m (case_Vary names)) in
  in_features nat nat m' = 1 /\ in_features nat nat (new_model nat nat case_str_of case_hash_of case_number (fun v => v) (fun _ => false) ticks (fun l => l) (fun l => l) (fun d => d) case_circuit case_obs (m_heap nat nat m') None) = 0.
Proof. intros ugp. exists case_start, ["x"]. destruct ugp; vm_compute; split; reflexivity. Qed.

Print Assumptions C59_asking. Print Assumptions C59_reset. Print Assumptions C59_evaluation. Print Assumptions C59_evaluation_expr. Print Assumptions C59_set. Print Assumptions C59_history. Print Assumptions C59_needs. Print Assumptions C59_inputs.
Print Assumptions C59_noise_refuted. Print Assumptions C59_training_refuted. Print Assumptions C59_fixed_refuted. Print Assumptions C59_inputs_refuted.
Print Assumptions C59_form.
