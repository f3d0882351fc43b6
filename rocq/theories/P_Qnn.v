(** C61: the inputs and the calls of a QNN. *)
From Coq Require Import String Ascii List Arith Bool Lia Permutation.
From Verif Require Import M_Trainable P_Trainable M_Embedding P_Embedding M_Model P_Model M_Qnn.
Import ListNotations.
Open Scope string_scope.
Open Scope list_scope.

Section F.
  Variable T : Type.
  Variable eqI : input -> input -> bool.
  Hypothesis eqI_refl : forall x, eqI x x = true.
  Hypothesis eqI_name : forall x y, eqI x y = true -> i_name x = i_name y.
  Notation names l := (map i_name l).

  Lemma index_at l : NoDup (names l) -> forall j x, nth_error l j = Some x -> index eqI l x = j.
  Proof.
    induction l as [|y l IH]; intros N [|j] x H; cbn in H; try discriminate.
    - injection H as ->. cbn. rewrite eqI_refl. reflexivity.
    - cbn. inversion N as [|? ? N1 N2]; subst. destruct (eqI y x) eqn:Q.
      + exfalso. apply N1. rewrite (eqI_name _ _ Q). apply in_map, (nth_error_In _ _ H).
      + f_equal. apply IH; assumption.
  Qed.
  Lemma set_new (d : sdict T) k v : ~ In k (map fst d) -> set d k v = d ++ [(k, v)].
  Proof. induction d as [|[k' v'] d IH]; intros N; [reflexivity|]. cbn. destruct (String.eqb_spec k' k) as [->|]; [exfalso; apply N; left; reflexivity|]. rewrite IH; [reflexivity|]. intros I. apply N. right. exact I. Qed.
  Lemma update_new (e : sdict T) : forall d, NoDup (map fst (d ++ e)) -> update d e = d ++ e.
  Proof.
    induction e as [|[k v] e IH]; intros d N; cbn; [rewrite app_nil_r; reflexivity|]. rewrite set_new.
    - change (update (d ++ [(k, v)]) e = d ++ (k, v) :: e). rewrite IH; rewrite <- app_assoc; [reflexivity|exact N].
    - rewrite map_app in N. cbn in N. apply NoDup_remove_2 in N. intros I. apply N, in_or_app. left. exact I.
  Qed.
  Lemma combine_keys (l : list input) : forall cols : list T, List.length cols = List.length l -> map fst (combine (names l) cols) = names l.
  Proof. induction l as [|x l IH]; intros [|c cols] L; try discriminate; [reflexivity|]. cbn. f_equal. apply IH. injection L as L. exact L. Qed.
  Lemma entries_combine (l : list input) (cols : list T) : List.length cols = List.length l -> NoDup (names l) ->
    flat_map (fun f => match nth_error cols (index eqI l f) with Some c => [(i_name f, c)] | None => [] end) l = combine (names l) cols.
  Proof.
    intros L N.
    assert (K : forall r s, List.length s = List.length r -> (forall j x, nth_error r j = Some x -> nth_error cols (index eqI l x) = nth_error s j) ->
      flat_map (fun f => match nth_error cols (index eqI l f) with Some c => [(i_name f, c)] | None => [] end) r = combine (names r) s).
    { induction r as [|x r IH]; intros [|c s] Ls H; try discriminate; [reflexivity|]. cbn [flat_map map combine]. rewrite (H 0 x eq_refl). cbn. f_equal. apply IH; [injection Ls as Ls; exact Ls|]. intros j y Hj. exact (H (S j) y Hj). }
    apply K; [exact L|]. intros j x H. rewrite (index_at l N j x H). reflexivity.
  Qed.
  Lemma format_combine l cols : NoDup (names l) -> List.length cols = List.length l -> format_to_dict T eqI l (VColumns cols) = Some (Some (Flat (combine (names l) cols))).
  Proof.
    intros N L. cbn. unfold from_columns. rewrite L, Nat.eqb_refl, entries_combine by assumption. do 3 f_equal. rewrite update_new; [reflexivity|]. cbn. rewrite combine_keys; assumption.
  Qed.
  (** Column j of the tensor is the value of the j-th name, and nothing else is passed; a vector is one column; a tensor with another number
      of columns, or without dimensions, is refused; dictionaries are passed as they are. *)
  Theorem C61_columns : forall l,
    (forall cols, NoDup (names l) -> List.length cols = List.length l -> exists d, format_to_dict T eqI l (VColumns cols) = Some (Some (Flat d)) /\
       (forall j k c, nth_error (names l) j = Some k -> nth_error cols j = Some c -> get d k = Some c) /\ (forall k, get d k <> None -> In k (names l)) /\ NoDup (map fst d)) /\
    (forall t, format_to_dict T eqI l (VVector t) = format_to_dict T eqI l (VColumns [t])) /\
    (forall cols, List.length cols <> List.length l -> format_to_dict T eqI l (VColumns cols) = None) /\
    format_to_dict T eqI l VScalar = None /\ (forall d, format_to_dict T eqI l (VDict d) = Some (Some d)).
  Proof.
    intros l. split; [|split; [reflexivity|split; [|split; reflexivity]]].
    - intros cols N L. exists (combine (names l) cols). split; [apply format_combine; assumption|]. split; [|split].
      + clear - N. revert cols N. induction (names l) as [|n ns IH]; intros cols N [|j] k c Hk Hc; cbn in Hk; try discriminate; destruct cols as [|c' cols]; cbn in Hc; try discriminate.
        * injection Hk as ->. injection Hc as ->. cbn. rewrite String.eqb_refl. reflexivity.
        * inversion N as [|? ? N1 N2]; subst. cbn. destruct (String.eqb_spec n k) as [->|]; [exfalso; apply N1, (nth_error_In _ _ Hk)|]. exact (IH cols N2 j k c Hk Hc).
      + intros k H. rewrite <- (combine_keys l cols L). destruct (in_dec string_dec k (map fst (combine (names l) cols))) as [I|I]; [exact I|]. exfalso. apply H. apply get_none. exact I.
      + rewrite combine_keys; assumption.
    - intros cols L. cbn. unfold from_columns. destruct (Nat.eqb_spec (List.length cols) (List.length l)); [contradiction|reflexivity].
  Qed.
End F.

Section T.
  Variables X Noise Meas Mit Obs Args Res : Type.
  Notation tensor := (tensor X).
  Variable eqE : forall a b : pexpr, {a = b} + {a <> b}.
  Variable str_of hash_of : pexpr -> string.
  Variable fn : pexpr -> sdict tensor -> tensor.
  Variable reshape expand : tensor -> tensor.
  Variable one : tensor.
  Variable number : pexpr -> X.
  Variable initial : nat -> X.
  Variable is_time : nat -> bool.
  Variable ustr : nat -> string.
  Variable uniqE : list pexpr -> list pexpr.
  Variable uniqS : list (symbol tensor) -> list (symbol tensor).
  Variable parameter_dict : sdict tensor -> sdict tensor.
  Variable use_gate_params : bool.
  Variable b_run : inputs_t tensor -> Args -> Res.
  Variable b_sample : inputs_t tensor -> option Noise -> option Mit -> Args -> Res.
  Variable b_expectation : option Obs -> inputs_t tensor -> option Meas -> option Noise -> option Mit -> Args -> Res.
  Variable circuit_block : tblock.
  Variable observable : option (list tblock).
  Variable measurement : option Meas.
  Variable eqI : input -> input -> bool.
  Hypothesis HuE : forall l x, In x (uniqE l) <-> In x l.
  Hypothesis HuS : forall l x, In x (uniqS l) <-> In x l.
  Hypothesis Hpd : forall d, Permutation (parameter_dict d) d.
  Hypothesis Hu : forall u u', ustr u = ustr u' -> u = u'.
  Hypothesis Hp : Forall plain_controls (blocks circuit_block observable).
  Hypothesis Hc : forall b b' u e e', In b (blocks circuit_block observable) -> In b' (blocks circuit_block observable) -> entry u e b -> entry u e' b' -> e = e'.
  (** == on symbols: reflexive, and equal symbols have the same name. *)
  Hypothesis eqI_refl : forall x, eqI x x = true.
  Hypothesis eqI_name : forall x y, eqI x y = true -> i_name x = i_name y.

  Notation names l := (map i_name l).
  Notation used := (used circuit_block observable).
  Notation model := (model X Noise).
  Notation qcall := (qcall X Noise Meas Mit Obs Args).
  Notation step := (step X Noise Meas Mit Obs Args Res eqE str_of hash_of fn reshape expand one number initial is_time ustr uniqE uniqS parameter_dict use_gate_params b_run b_sample b_expectation circuit_block observable measurement None).
  Notation exec := (exec X Noise Meas Mit Obs Args Res eqE str_of hash_of fn reshape expand one number initial is_time ustr uniqE uniqS parameter_dict use_gate_params b_run b_sample b_expectation circuit_block observable measurement None).
  Notation new_model := (new_model X Noise str_of hash_of number initial is_time ustr uniqE uniqS parameter_dict circuit_block observable).
  Notation embed := (embed X eqE str_of hash_of fn reshape expand one initial is_time ustr uniqE use_gate_params circuit_block observable).
  Notation run := (run X Noise Args Res eqE str_of hash_of fn reshape expand one initial is_time ustr uniqE use_gate_params b_run circuit_block observable).
  Notation new_qnn := (new_qnn X Noise str_of hash_of number initial is_time ustr uniqE uniqS parameter_dict circuit_block observable).
  Notation handed_on := (handed_on X Noise Meas Mit Obs Args measurement eqI).
  Notation qstep := (qstep X Noise Meas Mit Obs Args Res eqE str_of hash_of fn reshape expand one number initial is_time ustr uniqE uniqS parameter_dict use_gate_params b_run b_sample b_expectation circuit_block observable measurement eqI).
  Notation qexec := (qexec X Noise Meas Mit Obs Args Res eqE str_of hash_of fn reshape expand one number initial is_time ustr uniqE uniqS parameter_dict use_gate_params b_run b_sample b_expectation circuit_block observable measurement eqI).
  Notation handed := (handed X Noise str_of hash_of fn reshape one initial is_time ustr circuit_block observable).
  Notation names_clear := (names_clear str_of hash_of circuit_block observable).
  Notation m_heap := (m_heap X Noise). Notation m_params := (m_params X Noise). Notation m_noise := (m_noise X Noise). Notation m_inputs := (m_inputs X Noise).
  Notation q_model := (q_model X Noise). Notation q_inputs := (q_inputs X Noise).
  Notation QForward := (QForward X Noise Meas Mit Obs Args). Notation QExpectation := (QExpectation X Noise Meas Mit Obs Args). Notation QRun := (QRun X Noise Meas Mit Obs Args). Notation QSample := (QSample X Noise Meas Mit Obs Args).

  (** The feature parameters of the circuit and the observables: those in use that are not trainable. *)
  Definition features (h : heap) (fs : list string) : Prop := NoDup fs /\ forall k, In k fs <-> exists o, used o /\ ptrain (h o) = false /\ pname (h o) = k.
  (** The constructor needs an observable, and either as many inputs as there are features, or no list and at most one feature. *)
  Theorem C61_constructor : forall h noise given fs, features h fs ->
    ((exists q, new_qnn h noise given = Some q) <-> observable <> None /\ match given with Some l => List.length l = List.length fs | None => (List.length fs <= 1)%nat end) /\
    (forall q, new_qnn h noise given = Some q -> q_model q = new_model h noise /\ names (q_inputs q) = match given with Some l => map (fun w => match w with Text s => s | Symbol i => i_name i end) l | None => fs end).
  Proof.
    intros h noise given fs [Nf Ff].
    destruct (C59_inputs X Noise str_of hash_of number initial is_time ustr uniqE uniqS parameter_dict circuit_block observable Hp Hc h noise) as [Nm Fm].
    assert (P : Permutation (m_inputs (new_model h noise)) fs) by (apply NoDup_Permutation; [exact Nm|exact Nf|]; intros k; rewrite Fm, Ff; tauto).
    unfold M_Qnn.new_qnn, in_features. rewrite (Permutation_length P).
    destruct observable as [obs|]; [|split; [split; [intros [q Q]; discriminate|intros [Q _]; congruence]|discriminate]].
    destruct given as [l|].
    - destruct (Nat.eqb_spec (List.length fs) (List.length l)) as [E|E].
      + split; [split; [intros _; split; [discriminate|congruence]|intros _; eexists; reflexivity]|]. intros q Q. injection Q as <-. split; [reflexivity|]. cbn [M_Qnn.q_inputs]. rewrite map_map. apply map_ext. intros [s|i]; reflexivity.
      + split; [split; [intros [q Q]; discriminate|intros [_ Q]; congruence]|discriminate].
    - destruct (Nat.leb_spec (List.length fs) 1) as [E|E].
      + split; [split; [intros _; split; [discriminate|exact E]|intros _; eexists; reflexivity]|]. intros q Q. injection Q as <-. split; [reflexivity|]. cbn [M_Qnn.q_inputs]. rewrite map_map. cbn [i_name]. rewrite map_id.
        destruct fs as [|k [|? ?]]; [apply Permutation_sym, Permutation_nil in P; exact P|apply Permutation_sym, Permutation_length_1_inv in P; exact P|cbn in E; lia].
      + split; [split; [intros [q Q]; discriminate|intros [_ Q]; lia]|discriminate].
  Qed.

  Lemma qstep_handed q c : qstep q c = match handed_on q c with None => (q, Raised Res) | Some c' => (Qnn X Noise (fst (step (q_model q) c')) (q_inputs q), snd (step (q_model q) c')) end.
  Proof. reflexivity. Qed.
  (** Any calls of a QNN are calls of a QuantumModel with the same circuit and observables (so C59 applies), and leave the inputs as they were. *)
  Theorem C61_history : forall q cs, q_inputs (qexec q cs) = q_inputs q /\ exists cs', q_model (qexec q cs) = exec (q_model q) cs'.
  Proof.
    intros q cs. revert q. induction cs as [|c cs IH]; intros q; [split; [reflexivity|]; exists []; reflexivity|].
    change (qexec q (c :: cs)) with (qexec (fst (qstep q c)) cs). destruct (IH (fst (qstep q c))) as [I (cs' & E)]. rewrite I, E, qstep_handed. destruct (handed_on q c) as [c'|].
    - cbn [fst M_Qnn.q_inputs M_Qnn.q_model]. split; [reflexivity|]. exists (c' :: cs'). reflexivity.
    - cbn [fst]. split; [reflexivity|]. exists cs'. reflexivity.
  Qed.

  (** * What a tensor is evaluated to *)
  Lemma qx q v o me n k a : handed_on q (QExpectation v o me n k a) = option_map (fun d => Expectation X Noise Meas Mit Obs Args d None (default me measurement) (default n (m_noise (q_model q))) None a) (or_empty X (format_to_dict tensor eqI (q_inputs q) v)).
  Proof. reflexivity. Qed.
  Lemma def_def {A} (a b : option A) : default (default a b) b = default a b.
  Proof. destruct a, b; reflexivity. Qed.
  (** forward is expectation without observable and mitigation; with them it is the same: they are ignored. *)
  Theorem C61_forward : forall q v me n a, (forall o k, qstep q (QExpectation v o me n k a) = qstep q (QForward v me n a)).
  Proof. reflexivity. Qed.
  (** At gate level the value of forward on a tensor is the backend's expectation of the model's observables, with every expression evaluated at
      the current parameters and with the j-th name standing for the j-th column, under the measurement and noise of the call or else of the model;
      it is an exception only if a run with these values is. *)
  Theorem C61_evaluation : forall q cols me n a, use_gate_params = true -> observable <> None -> NoDup (names (q_inputs q)) -> List.length cols = List.length (q_inputs q) ->
    let v := Flat (combine (names (q_inputs q)) cols) in
    (exists g, handed (q_model q) v g /\ snd (qstep q (QForward (VColumns cols) me n a)) =
       Got Res (b_expectation None g (match me with Some _ => me | None => measurement end) (match n with Some _ => n | None => m_noise (q_model q) end) None a)) \/
    (run (q_model q) v a = None /\ qstep q (QForward (VColumns cols) me n a) = (q, Raised Res)).
  Proof.
    intros q cols me n a G Ob N L v. rewrite qstep_handed. change (handed_on q (QForward (VColumns cols) me n a)) with (handed_on q (QExpectation (VColumns cols) None me n None a)).
    rewrite qx, format_combine by assumption. fold v. cbn [or_empty option_map M_Model.step].
    assert (Di : dicts tensor v) by (unfold v; cbn; rewrite combine_keys; assumption).
    destruct (C59_evaluation X Noise Meas Mit Obs Args Res eqE str_of hash_of fn reshape expand one number initial is_time ustr uniqE use_gate_params b_run b_sample b_expectation circuit_block observable measurement None HuE Hu Hc (q_model q) v a G Di) as [(g & Hg & _ & _ & E)|(R & _ & E)].
    - left. exists g. split; [exact Hg|]. destruct (E None (default me measurement) (default n (m_noise (q_model q))) None (or_intror Ob)) as (m' & ->). cbn [snd fst].
      do 2 f_equal; destruct me, n, measurement, (m_noise (q_model q)); reflexivity.
    - right. split; [exact R|]. rewrite E. cbn. destruct q. reflexivity.
  Qed.
  (** run and sample of a tensor are those of the QuantumModel on the dictionary of its columns, with the noise and mitigation of the call; the inherited
      calls are those of the QuantumModel.  The inputs stay as they are. *)
  Definition as_model (q : qnn X Noise) (r : model * outcome Res) : qnn X Noise * outcome Res := (Qnn X Noise (fst r) (q_inputs q), snd r).
  Theorem C61_as_model : forall q,
    (forall cols, NoDup (names (q_inputs q)) -> List.length cols = List.length (q_inputs q) -> let v := Flat (combine (names (q_inputs q)) cols) in
       (forall a, qstep q (QRun (VColumns cols) a) = as_model q (step (q_model q) (Run X Noise Meas Mit Obs Args v a))) /\
       (forall n k a, qstep q (QSample (VColumns cols) n k a) = as_model q (step (q_model q) (Sample X Noise Meas Mit Obs Args v n k a)))) /\
    (forall v, (forall a, qstep q (QRun (VDict v) a) = as_model q (step (q_model q) (Run X Noise Meas Mit Obs Args v a))) /\
       (forall n k a, qstep q (QSample (VDict v) n k a) = as_model q (step (q_model q) (Sample X Noise Meas Mit Obs Args v n k a)))) /\
    (forall vs, qstep q (QResetVparams X Noise Meas Mit Obs Args vs) = as_model q (step (q_model q) (ResetVparams X Noise Meas Mit Obs Args vs))) /\
    (forall f, qstep q (QOptimise X Noise Meas Mit Obs Args f) = as_model q (step (q_model q) (Optimise X Noise Meas Mit Obs Args f))) /\
    (forall l, qstep q (QSetAsVariational X Noise Meas Mit Obs Args l) = as_model q (step (q_model q) (SetAsVariational X Noise Meas Mit Obs Args l))) /\
    (forall l, qstep q (QSetAsFixed X Noise Meas Mit Obs Args l) = as_model q (step (q_model q) (SetAsFixed X Noise Meas Mit Obs Args l))).
  Proof.
    intros q. split; [|repeat split; reflexivity]. intros cols N L v. split; [intros a|intros n k a]; rewrite qstep_handed; cbn [M_Qnn.handed_on]; rewrite format_combine by assumption; reflexivity.
  Qed.
  (** Tensors of the wrong shape are refused and change nothing. *)
  (** Without values the QNN uses none: running and evaluating are those with the empty dictionary, but sampling raises an exception. *)
  Theorem C61_no_values : forall q,
    (forall me n a, qstep q (QForward VNone me n a) = qstep q (QForward (VDict (Flat [])) me n a)) /\
    (forall o me n k a, qstep q (QExpectation VNone o me n k a) = qstep q (QExpectation (VDict (Flat [])) o me n k a)) /\
    (forall a, qstep q (QRun VNone a) = as_model q (step (q_model q) (Run X Noise Meas Mit Obs Args (Flat []) a))) /\
    (forall n k a, qstep q (QSample VNone n k a) = (q, Raised Res)).
  Proof. intros q. repeat split. Qed.
  Theorem C61_refused : forall q v, (v = VScalar \/ (exists t, v = VVector t /\ List.length (q_inputs q) <> 1) \/ exists cols, v = VColumns cols /\ List.length cols <> List.length (q_inputs q)) ->
    (forall me n a, qstep q (QForward v me n a) = (q, Raised Res)) /\ (forall a, qstep q (QRun v a) = (q, Raised Res)) /\ (forall n k a, qstep q (QSample v n k a) = (q, Raised Res)) /\
    (forall o me n k a, qstep q (QExpectation v o me n k a) = (q, Raised Res)).
  Proof.
    intros q v H. assert (F : format_to_dict tensor eqI (q_inputs q) v = None).
    { destruct H as [->|[(t & -> & L)|(cols & -> & L)]]; [reflexivity| |]; cbn [format_to_dict]; unfold from_columns; [destruct (Nat.eqb_spec (List.length [t]) (List.length (q_inputs q))) as [Q|Q]|destruct (Nat.eqb_spec (List.length cols) (List.length (q_inputs q))) as [Q|Q]]; try reflexivity; exfalso; cbn [List.length] in *; congruence. }
    unfold M_Qnn.qstep, M_Qnn.handed_on, q_expectation. rewrite F. repeat split.
  Qed.

  (** * When forward is defined *)
  Lemma flags_same cs : forall m, (forall c, In c cs -> match c with SetAsVariational _ _ _ _ _ _ _ | SetAsFixed _ _ _ _ _ _ _ => False | _ => True end) -> m_heap (exec m cs) = m_heap m.
  Proof.
    clear Hp Hc.
    induction cs as [|c cs IH]; intros m H; [reflexivity|]. change (exec m (c :: cs)) with (exec (fst (step m c)) cs). rewrite IH by (intros c' I; apply H; right; exact I). specialize (H c (or_introl eq_refl)).
    destruct c as [v a|v n k a|v o me n k a|vs|f|l|l]; try contradiction; try reflexivity.
    - cbn [M_Model.step]. unfold expectation. destruct o, observable; try reflexivity; match goal with |- context [match ?e with Some _ => _ | None => None end] => destruct e end; try reflexivity; destruct n; reflexivity.
    - cbn [M_Model.step]. unfold reset_vparams. destruct (Nat.eqb _ _); reflexivity.
  Qed.
  Definition keeps_flags (c : qcall) : Prop := match c with QSetAsVariational _ _ _ _ _ _ _ | QSetAsFixed _ _ _ _ _ _ _ => False | _ => True end.
  Lemma history_flags q cs : Forall keeps_flags cs -> m_heap (q_model (qexec q cs)) = m_heap (q_model q).
  Proof.
    intros H. revert q. induction H as [|c cs K H IH]; intros q; [reflexivity|]. change (qexec q (c :: cs)) with (qexec (fst (qstep q c)) cs). rewrite IH, qstep_handed.
    destruct (handed_on q c) as [c'|] eqn:E; [|reflexivity]. cbn [fst M_Qnn.q_model]. change (fst (step (q_model q) c')) with (exec (q_model q) [c']). apply flags_same. intros c'' [<-|[]].
    destruct c; cbn in K; try contradiction; cbn [M_Qnn.handed_on q_expectation] in E; try (injection E as <-; exact I).
    all: unfold q_expectation in E; try (destruct (or_empty X (format_to_dict tensor eqI (q_inputs q) v)); [injection E as <-; exact I|discriminate]).
    destruct (format_to_dict tensor eqI (q_inputs q) v) as [[d|]|]; [injection E as <-; exact I|discriminate|discriminate].
  Qed.
  (** As long as no parameter is made variational or fixed: forward on a table of the right width gives a value exactly when every feature that is
      not a time, and has not the name of a trainable parameter, is among the given names. *)
  Theorem C61_defined : forall h noise given q cs cols me n a, new_qnn h noise given = Some q -> names_clear h -> Forall keeps_flags cs ->
    NoDup (names (q_inputs q)) -> ~ In "circuit" (names (q_inputs q)) -> ~ In "observables" (names (q_inputs q)) -> List.length cols = List.length (q_inputs q) ->
    ((exists r, snd (qstep (qexec q cs) (QForward (VColumns cols) me n a)) = Got Res r) <->
     forall o, used o -> ptrain (h o) = false -> is_time o = false -> (forall o', used o' -> ptrain (h o') = true -> pname (h o') <> pname (h o)) -> In (pname (h o)) (names (q_inputs q))).
  Proof.
    intros h noise given q cs cols me n a Q Cl K N Nc No L.
    assert (Ob : observable <> None) by (unfold M_Qnn.new_qnn in Q; destruct observable; congruence).
    assert (Qm : q_model q = new_model h noise). { unfold M_Qnn.new_qnn in Q. destruct observable; [|discriminate]. destruct given; [destruct (Nat.eqb _ _)|destruct (Nat.leb _ _)]; try discriminate; injection Q as <-; reflexivity. }
    destruct (C61_history q cs) as [Iq (cs' & Eq)]. set (q' := qexec q cs) in *.
    assert (Hh : m_heap (q_model q') = h) by (unfold q'; rewrite history_flags by exact K; rewrite Qm; reflexivity).
    assert (L' : List.length cols = List.length (q_inputs q')) by congruence. assert (N' : NoDup (names (q_inputs q'))) by (rewrite Iq; exact N).
    pose (v := Flat (combine (names (q_inputs q')) cols)).
    assert (Di : dicts tensor v) by (unfold v; cbn; rewrite combine_keys; assumption).
    assert (R : (exists r, snd (qstep q' (QForward (VColumns cols) me n a)) = Got Res r) <-> run (q_model q') v a <> None).
    { rewrite qstep_handed. change (handed_on q' (QForward (VColumns cols) me n a)) with (handed_on q' (QExpectation (VColumns cols) None me n None a)). rewrite qx, format_combine by assumption. fold v. cbn [or_empty option_map M_Model.step snd].
      unfold M_Model.run, expectation. destruct observable; [|congruence]. match goal with |- context [option_map _ ?e] => destruct e end; cbn; split; [discriminate|eexists; reflexivity|intros [r Z]; discriminate|congruence]. }
    rewrite R. rewrite Eq in *. rewrite Qm in *.
    pose proof (C59_needs X Noise Meas Mit Obs Args Res eqE str_of hash_of fn reshape expand one number initial is_time ustr uniqE uniqS parameter_dict use_gate_params b_run b_sample b_expectation circuit_block observable measurement None HuE HuS Hpd Hu Hp Hc h noise cs' v a Cl Di) as Z.
    cbv zeta in Z. rewrite Z. rewrite Hh.
    assert (Iv : forall k, input_value v k <> None <-> In k (names (q_inputs q))).
    { intros k. unfold v. cbn [input_value]. rewrite Iq. split.
      - intros H. rewrite <- (combine_keys tensor (q_inputs q) cols L). destruct (in_dec string_dec k (map fst (combine (names (q_inputs q)) cols))) as [I|I]; [exact I|]. exfalso. apply H, get_none, I.
      - intros H G. apply get_none in G. rewrite (combine_keys tensor (q_inputs q) cols L) in G. exact (G H). }
    split.
    - intros [_ H] o Uo To Ti Ne. apply Iv. destruct (H o Uo) as [A|[A|(o' & U' & T' & A)]]; [exact A|congruence|]. exfalso. exact (Ne o' U' T' A).
    - intros H. split.
      + cbn. unfold v. rewrite Iq, (combine_keys tensor (q_inputs q) cols L). split; assumption.
      + intros o Uo. destruct (ptrain (h o)) eqn:To; [right; right; exists o; auto|]. destruct (is_time o) eqn:Ti; [right; left; reflexivity|].
        destruct (in_dec string_dec (pname (h o)) (names (q_inputs q))) as [I|I]; [left; apply Iv, I|]. right. right.
        assert (D : forall l, (exists o', In o' l /\ ptrain (h o') = true /\ pname (h o') = pname (h o)) \/ (forall o', In o' l -> ptrain (h o') = true -> pname (h o') <> pname (h o))).
        { induction l as [|x l IH]; [right; intros o' []|]. destruct IH as [(o' & I' & H')|IH]; [left; exists o'; split; [right; exact I'|exact H']|].
          destruct (ptrain (h x)) eqn:Tx; [destruct (string_dec (pname (h x)) (pname (h o))) as [E|E]|].
          - left. exists x. split; [left; reflexivity|auto].
          - right. intros o' [<-|I'] T'; [exact E|apply IH; assumption].
          - right. intros o' [<-|I'] T'; [congruence|apply IH; assumption]. }
        assert (Us : forall o', used o' <-> In o' (all_symbols circuit_block observable)).
        { intros o'. unfold all_symbols. rewrite in_flat_map. split.
          - intros (b & B & O). exists b. split; [exact B|]. apply (proj2 (table circuit_block observable Hp Hc b o' B)) in O as (u & e & Ie & O). apply in_flat_map. exists (u, e). split; [exact Ie|apply free_symbols_spec, O].
          - intros (b & B & I'). apply in_flat_map in I' as ([u e] & Ie & I'). exists b. split; [exact B|]. apply (proj1 (table circuit_block observable Hp Hc b o' B)). exists u, e. split; [exact Ie|apply free_symbols_spec, I']. }
        destruct (D (all_symbols circuit_block observable)) as [(o' & I' & H')|H']; [exists o'; split; [apply Us, I'|exact H']|].
        exfalso. apply I. apply H; auto. intros o' U' T'. apply H'; [apply Us, U'|exact T'].
  Qed.

  (** * The order of the inputs *)
  Lemma effective_ext d d' : (forall k, get d k = get d' k) -> effective_inputs tensor (Flat d) = None /\ effective_inputs tensor (Flat d') = None \/ effective_inputs tensor (Flat d) = Some d /\ effective_inputs tensor (Flat d') = Some d'.
  Proof. intros H. cbn. unfold has. rewrite !H. destruct (get d' "circuit"), (get d' "observables"); cbn; auto. Qed.
  Lemma value_ext params d d' (s : symbol tensor) : (forall k, get d k = get d' k) -> symbol_value tensor one params d s = symbol_value tensor one params d' s.
  Proof. intros H. unfold symbol_value. rewrite H. reflexivity. Qed.
  Lemma values_ext params d d' l : (forall k, get d k = get d' k) -> forall acc, symbol_values tensor one params d l acc = symbol_values tensor one params d' l acc.
  Proof. intros H. induction l as [|s l IH]; intros acc; [reflexivity|]. cbn. rewrite (value_ext params d d' s H). destruct (symbol_value tensor one params d' s); [apply IH|reflexivity]. Qed.
  Lemma embedded_ext h b params d d' : (forall k, get d k = get d' k) ->
    embedded pexpr tensor eqE (M_Model.free X initial is_time h) is_number is_array str_of hash_of no_string fn reshape one uniqE (uuids ustr b) params d =
    embedded pexpr tensor eqE (M_Model.free X initial is_time h) is_number is_array str_of hash_of no_string fn reshape one uniqE (uuids ustr b) params d'.
  Proof.
    intros H. unfold embedded.
    assert (K : forall l acc, embed_exprs pexpr tensor eqE (M_Model.free X initial is_time h) fn reshape one params d l acc = embed_exprs pexpr tensor eqE (M_Model.free X initial is_time h) fn reshape one params d' l acc).
    { induction l as [|e l IH]; intros acc; [reflexivity|]. cbn [embed_exprs]. rewrite (values_ext params d d' _ H). destruct (symbol_values _ _ _ _ _ _); [apply IH|reflexivity]. }
    rewrite K. reflexivity.
  Qed.
  Lemma gate_ext h b params d d' : use_gate_params = true -> (forall k, get d k = get d' k) ->
    embedding_fn X eqE str_of hash_of fn reshape expand one initial is_time ustr uniqE use_gate_params h b params (Flat d) = embedding_fn X eqE str_of hash_of fn reshape expand one initial is_time ustr uniqE use_gate_params h b params (Flat d').
  Proof.
    intros G H. unfold embedding_fn. rewrite G. unfold embedding_gate. destruct (effective_ext d d' H) as [[-> ->]|[-> ->]]; [reflexivity|]. rewrite (embedded_ext h b params d d' H). reflexivity.
  Qed.
  Lemma embed_ext h params d d' : use_gate_params = true -> (forall k, get d k = get d' k) -> embed h params (Flat d) = embed h params (Flat d').
  Proof.
    intros G H. unfold M_Model.embed. rewrite (gate_ext h circuit_block params d d' G H).
    destruct (embedding_fn _ _ _ _ _ _ _ _ _ _ _ _ _ h circuit_block params (Flat d')); [|reflexivity]. destruct observable as [obs|]; [|reflexivity]. cbn [is_nested]. f_equal.
    assert (K : forall l acc, embed_all X eqE str_of hash_of fn reshape expand one initial is_time ustr uniqE use_gate_params h l params (Flat d) acc = embed_all X eqE str_of hash_of fn reshape expand one initial is_time ustr uniqE use_gate_params h l params (Flat d') acc).
    { induction l as [|b l IH]; intros acc; [reflexivity|]. cbn [embed_all]. rewrite (gate_ext h b params d d' G H). destruct (embedding_fn _ _ _ _ _ _ _ _ _ _ _ _ _ h b params (Flat d')); [apply IH|reflexivity]. }
    apply K.
  Qed.
  (** Reordering the inputs together with the columns changes no answer. *)
  Theorem C61_order : forall m l l' cols cols', use_gate_params = true -> NoDup (names l) -> List.length cols = List.length l -> List.length cols' = List.length l' ->
    Permutation (combine (names l) cols) (combine (names l') cols') ->
    (forall me n a, snd (qstep (Qnn X Noise m l) (QForward (VColumns cols) me n a)) = snd (qstep (Qnn X Noise m l') (QForward (VColumns cols') me n a))) /\
    (forall a, snd (qstep (Qnn X Noise m l) (QRun (VColumns cols) a)) = snd (qstep (Qnn X Noise m l') (QRun (VColumns cols') a))) /\
    (forall n k a, snd (qstep (Qnn X Noise m l) (QSample (VColumns cols) n k a)) = snd (qstep (Qnn X Noise m l') (QSample (VColumns cols') n k a))).
  Proof.
    intros m l l' cols cols' G N L L' P.
    assert (Pn : Permutation (names l) (names l')) by (rewrite <- (combine_keys tensor l cols L), <- (combine_keys tensor l' cols' L'); apply Permutation_map, P).
    assert (N' : NoDup (names l')) by (apply (Permutation_NoDup Pn), N).
    assert (Gt : forall k, get (combine (names l) cols) k = get (combine (names l') cols') k).
    { assert (N1 : NoDup (map fst (combine (names l) cols))) by (rewrite combine_keys; assumption). assert (N2 : NoDup (map fst (combine (names l') cols'))) by (rewrite combine_keys; assumption).
      intros k. destruct (get (combine (names l) cols) k) as [v|] eqn:E.
      - symmetry. apply In_get; [exact N2|]. apply (Permutation_in _ P). apply get_In. exact E.
      - symmetry. apply get_none. apply get_none in E. rewrite combine_keys in * by assumption. intros I. apply E, (Permutation_in _ (Permutation_sym Pn)), I. }
    unfold M_Qnn.qstep, M_Qnn.handed_on, q_expectation. cbn [M_Qnn.q_inputs M_Qnn.q_model]. rewrite !format_combine by assumption. cbn [or_empty option_map M_Model.step snd].
    unfold M_Model.run, M_Model.sample, M_Model.expectation. rewrite (embed_ext (m_heap m) (m_params m) _ _ G Gt). repeat split.
  Qed.
End T.

(** * A QNN with two features *)
Definition pair_circuit : tblock := TComp [TParam [(0, PSym 0)]; TParam [(1, PSym 1)]].
Definition pair_obs : option (list tblock) := Some [TScale TPrim 2 (PSym 2)].
Definition pair_objects : heap := fun o => match o with 0 => mkP "x" false 0 | 1 => mkP "y" false 0 | _ => mkP "w" true 7 end.
Definition pair_str (e : pexpr) : string := match e with PSym 0 => "x" | PSym 1 => "y" | PSym 2 => "w" | _ => "?" end.
Definition pair_eqI (a b : input) : bool := String.eqb (i_name a) (i_name b).
(** The backend reports the observable, the parameters, the noise and the mitigation it was given. *)
Definition pair_answer : Type := (option nat * inputs_t (nat * bool) * option nat * option nat)%type.
Definition pair_b_run (g : inputs_t (nat * bool)) (_ : unit) : pair_answer := (None, g, None, None).
Definition pair_b_sample (g : inputs_t (nat * bool)) (n : option nat) (k : option nat) (_ : unit) : pair_answer := (None, g, n, k).
Definition pair_b_expectation (o : option nat) (g : inputs_t (nat * bool)) (_ : option unit) (n : option nat) (k : option nat) (_ : unit) : pair_answer := (o, g, n, k).
Definition pair_new := new_qnn nat nat pair_str case_hash_of case_number (fun v => v) (fun _ => false) ticks (fun l => l) (fun l => l) (fun d => d) pair_circuit pair_obs pair_objects None.
Definition pair_qstep ugp := qstep nat nat unit nat nat unit pair_answer pexpr_dec pair_str case_hash_of case_fn case_ident case_ident (1, false) case_number (fun v => v) (fun _ => false) ticks (fun l => l) (fun l => l) (fun d => d) ugp pair_b_run pair_b_sample pair_b_expectation pair_circuit pair_obs None pair_eqI.
Definition pair_step ugp := step nat nat unit nat nat unit pair_answer pexpr_dec pair_str case_hash_of case_fn case_ident case_ident (1, false) case_number (fun v => v) (fun _ => false) ticks (fun l => l) (fun l => l) (fun d => d) ugp pair_b_run pair_b_sample pair_b_expectation pair_circuit pair_obs None None.
Definition pair_forward cols := QForward nat nat unit nat nat unit (VColumns cols) None None tt.
Definition pair_table : list (nat * bool) := [(3, false); (5, false)].
(** With inputs ["y", "x"] the first column is y. *)
Example C61_case : exists q, pair_new (Some [Text "y"; Text "x"]) = Some q /\
  (forall n, snd (pair_qstep true q (pair_forward [(3, false); (n, false)])) = Got pair_answer (None, Flat [("", (n + 0, false)); ("|", (3, false)); ("||", (7, false))], None, None)) /\
  snd (pair_qstep true q (pair_forward [(3, false)])) = Raised pair_answer /\
  pair_new None = None /\ pair_new (Some [Text "x"]) = None /\ NoDup (map i_name (q_inputs nat nat q)) /\ features pair_circuit pair_obs pair_objects ["x"; "y"].
Proof.
  eexists. split; [vm_compute; reflexivity|]. split; [reflexivity|]. split; [reflexivity|]. split; [reflexivity|]. split; [reflexivity|]. split; [cbn; repeat constructor; cbn; intuition congruence|].
  split; [repeat constructor; cbn; intuition congruence|]. intros k. split.
  - intros [<-|[<-|[]]]; [exists 0|exists 1]; (split; [|split; reflexivity]); exists pair_circuit; (split; [left; reflexivity|]); [eapply oc_comp; [left; reflexivity|]|eapply oc_comp; [right; left; reflexivity|]]; eapply oc_param; try (left; reflexivity); apply oc_sym.
  - intros (o & U & T & <-). destruct o as [|[|o]]; cbn in *; auto; discriminate.
Qed.
(** Only the number of inputs is checked: a QNN with misspelt inputs is built, and then refuses every table. *)
Theorem C61_names_refuted : exists l q, pair_new (Some l) = Some q /\ forall ugp cols, snd (pair_qstep ugp q (pair_forward cols)) = Raised pair_answer.
Proof.
  exists [Text "x"; Text "z"]. eexists. split; [vm_compute; reflexivity|]. intros ugp cols. destruct cols as [|c [|c' [|c'' cols]]]; destruct ugp; try (vm_compute; reflexivity); destruct c; try destruct c'; vm_compute; reflexivity.
Qed.
(** With a name given twice the first of the two columns is used and the second is lost, silently when the remaining feature has a value of its own. *)
Theorem C61_duplicate_refuted : forall T (c1 c2 c2' : T), format_to_dict T pair_eqI [Input "x" None; Input "x" None] (VColumns [c1; c2]) = format_to_dict T pair_eqI [Input "x" None; Input "x" None] (VColumns [c1; c2']).
Proof. reflexivity. Qed.
(** An observable or a mitigation protocol passed to QNN.expectation is ignored, where QuantumModel.expectation uses it. *)
Theorem C61_observable_refuted : forall ugp, exists q v o k,
  pair_qstep ugp q (QExpectation nat nat unit nat nat unit (VDict v) (Some o) None None (Some k) tt) = pair_qstep ugp q (QExpectation nat nat unit nat nat unit (VDict v) None None None None tt) /\
  snd (pair_step ugp (q_model nat nat q) (Expectation nat nat unit nat nat unit v (Some o) None None None tt)) <> snd (pair_step ugp (q_model nat nat q) (Expectation nat nat unit nat nat unit v None None None None tt)) /\
  snd (pair_step ugp (q_model nat nat q) (Expectation nat nat unit nat nat unit v None None None (Some k) tt)) <> snd (pair_step ugp (q_model nat nat q) (Expectation nat nat unit nat nat unit v None None None None tt)).
Proof.
  intros ugp. destruct (pair_new (Some [Text "x"; Text "y"])) as [q|] eqn:Q; [|vm_compute in Q; discriminate]. exists q, (Flat [("x", (3, false)); ("y", (5, false))]), 1, 2. vm_compute in Q. injection Q as <-.
  split; [reflexivity|]. destruct ugp; vm_compute; split; discriminate.
Qed.

Print Assumptions C61_columns. Print Assumptions C61_constructor. Print Assumptions C61_history. Print Assumptions C61_forward. Print Assumptions C61_evaluation. Print Assumptions C61_as_model. Print Assumptions C61_refused. Print Assumptions C61_defined. Print Assumptions C61_order.
Print Assumptions C61_names_refuted. Print Assumptions C61_duplicate_refuted. Print Assumptions C61_observable_refuted.
Print Assumptions C61_no_values.
