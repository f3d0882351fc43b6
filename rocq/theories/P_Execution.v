(** C66: run, sample and expectation accept circuits, blocks, registers and numbers of qubits interchangeably, hand every documented
    keyword to the backend, and agree with a QuantumModel. *)
From Coq Require Import String List Arith Bool Lia.
From Verif Require Import M_Tensor M_Execution.
Import ListNotations.
Open Scope string_scope.
Open Scope list_scope.

Section C66.
  Variables Reg Block Dict User Other : Type.
  Variable empty_dict : Dict.
  Variable Register : nat -> Reg.
  Variables (r_qubits : Reg -> nat) (b_qubits : Block -> nat) (b_nonempty b_analog b_global : Block -> bool).
  Variable default_user : bname -> User.
  Variable dict_user : bname -> User -> option (bool * bool * User).
  Variables Conv Params Emb Res : Type.
  Notation pyval := (pyval Reg Block Dict User Other).
  Notation kwargs := (kwargs Reg Block Dict User Other).
  Notation circuit := (circuit Reg Block).
  Notation config := (config User).
  Variable convert : bname -> config -> circuit -> option (list pyval) -> option Conv.
  Variable params_of : Conv -> Params.
  Variable embedding_fn : Conv -> Params -> pyval -> option Emb.
  Variable b_run : backend -> Conv -> Emb -> pyval -> pyval -> option Res.
  Variable b_sample : backend -> Conv -> Emb -> pyval -> pyval -> pyval -> pyval -> pyval -> option Res.
  Variable b_expectation : backend -> Conv -> Emb -> pyval -> pyval -> pyval -> pyval -> pyval -> option Res.
  Variable concat : list Res -> option Res.
  Variable parameter_dict : Params -> Params.
  (** Register(n) has n qubits; the embedding looks parameters up by name, so that torch's ParameterDict changes nothing. *)
  Hypothesis Hregister : forall n, r_qubits (Register n) = n.
  Hypothesis Hdict : forall c p v, embedding_fn c (parameter_dict p) v = embedding_fn c p v.

  Notation VCircuit := (VCircuit Reg Block Dict User Other).
  Notation VBlock := (VBlock Reg Block Dict User Other).
  Notation VRegister := (VRegister Reg Block Dict User Other).
  Notation VInt := (VInt Reg Block Dict User Other).
  Notation VList := (VList Reg Block Dict User Other).
  Notation VNone := (VNone Reg Block Dict User Other).
  Notation VDict := (VDict Reg Block Dict User Other).
  Notation VBackend := (VBackend Reg Block Dict User Other).
  Notation VDiff := (VDiff Reg Block Dict User Other).
  Notation VConfig := (VConfig Reg Block Dict User Other).
  Notation VBig := (VBig Reg Block Dict User Other).
  Notation run := (run Reg Block Dict User Other empty_dict Register r_qubits b_qubits b_nonempty b_analog b_global default_user dict_user Conv Params Emb Res convert params_of embedding_fn b_run concat).
  Notation run_value := (run_value Reg Block Dict User Other empty_dict Register r_qubits b_qubits b_nonempty b_analog b_global default_user dict_user Conv Params Emb Res convert params_of embedding_fn b_run concat).
  Notation run_circuit := (run_circuit Reg Block Dict User Other empty_dict default_user dict_user Conv Params Emb Res convert params_of embedding_fn b_run).
  Notation sample := (sample Reg Block Dict User Other empty_dict Register r_qubits b_qubits b_nonempty b_analog b_global default_user dict_user Conv Params Emb Res convert params_of embedding_fn b_sample).
  Notation sample_circuit := (sample_circuit Reg Block Dict User Other empty_dict default_user dict_user Conv Params Emb Res convert params_of embedding_fn b_sample).
  Notation expectation := (expectation Reg Block Dict User Other empty_dict Register r_qubits b_qubits b_nonempty b_analog b_global default_user dict_user Conv Params Emb Res convert params_of embedding_fn b_expectation).
  Notation expectation_circuit := (expectation_circuit Reg Block Dict User Other empty_dict default_user dict_user Conv Params Emb Res convert params_of embedding_fn b_expectation).
  Notation backend_factory := (backend_factory Reg Block Dict User Other default_user dict_user).
  Notation QuantumCircuit := (QuantumCircuit Reg Block r_qubits b_qubits b_nonempty b_analog b_global).
  Notation QuantumModel := (QuantumModel Reg Block Dict User Other default_user dict_user Conv Params convert params_of parameter_dict).
  Notation model_run := (model_run Reg Block Dict User Other empty_dict Conv Params Emb Res embedding_fn b_run).
  Notation model_sample := (model_sample Reg Block Dict User Other Conv Params Emb Res embedding_fn b_sample).
  Notation model_expectation := (model_expectation Reg Block Dict User Other Conv Params Emb Res embedding_fn b_expectation).
  Notation bind := (bind Reg Block Dict User Other).
  Notation arg := (arg Reg Block Dict User Other).
  Notation lookup := (@lookup pyval).

  (** * Lemmas on calls *)
  Lemma mem_spec k l : mem k l = true <-> In k l.
  Proof. unfold mem. rewrite existsb_exists. split; [intros (x & I & E); apply String.eqb_eq in E; subst; exact I|intros I; exists k; split; [exact I|apply String.eqb_refl]]. Qed.
  Lemma existsb_false {A} (f : A -> bool) l : existsb f l = false <-> forall x, In x l -> f x = false.
  Proof. split; [intros E x I; destruct (f x) eqn:F; [|reflexivity]; assert (existsb f l = true) by (apply existsb_exists; exists x; auto); congruence|intros H; destruct (existsb f l) eqn:E; [|reflexivity]; apply existsb_exists in E as (x & I & F); rewrite (H x I) in F; discriminate F]. Qed.
  Lemma lookup_none (kw : kwargs) k : lookup kw k = None <-> ~ In k (map fst kw).
  Proof. induction kw as [|[k' v] r IH]; [split; [intros _ []|reflexivity]|]. cbn. destruct (String.eqb k' k) eqn:E; [apply String.eqb_eq in E as ->; split; [discriminate|intros H; exfalso; apply H; left; reflexivity]|apply String.eqb_neq in E; rewrite IH; tauto]. Qed.
  Lemma lookup_filter (kw : kwargs) f k : f k = true -> lookup (filter (fun kv => f (fst kv)) kw) k = lookup kw k.
  Proof. intros F. induction kw as [|[k' v] r IH]; [reflexivity|]. cbn. destruct (f k') eqn:E; cbn; destruct (String.eqb k' k) eqn:Q; try exact IH; try reflexivity. apply String.eqb_eq in Q. congruence. Qed.
  (** Calls with one positional argument or two and otherwise keywords. *)
  Definition reserved : list string := ["circuit"; "register"; "n_qubits"; "block"].
  Definition given (kw : kwargs) (k : string) (d : pyval) : pyval := match lookup kw k with Some v => v | None => d end.
  Definition only (names : list string) (kw : kwargs) : bool := forallb (fun kv => mem (fst kv) names) kw.
  Lemma only_spec names kw : only names kw = true <-> forall k, In k (map fst kw) -> In k names.
  Proof. unfold only. rewrite forallb_forall. split; [intros H k I; apply in_map_iff in I as (kv & <- & I); apply mem_spec, H, I|intros H kv I; apply mem_spec, H, in_map, I]. Qed.
  Lemma bind_kw_defaults (s : signature Reg Block Dict User Other) kw : (forall n d, In (n, d) s -> d <> None) ->
    bind_keywords Reg Block Dict User Other s kw = Some (map (fun nd => (fst nd, given kw (fst nd) (match snd nd with Some d => d | None => VNone end))) s).
  Proof. induction s as [|[n d] s IH]; intros H; [reflexivity|]. cbn [bind_keywords map fst snd]. rewrite IH by (intros n' d' I; apply (H n' d'); right; exact I). unfold given. destruct (lookup kw n) as [v|]; [reflexivity|]. destruct d as [d|]; [reflexivity|]. exfalso. apply (H n None); [left|]; reflexivity. Qed.
  (** A function whose first [length pos] parameters are given by position and all others have defaults. *)
  Lemma bind_full (s0 : list string) (s : signature Reg Block Dict User Other) pos kw : length s0 = length pos -> (forall n d, In (n, d) s -> d <> None) -> NoDup (s0 ++ map fst s) ->
    bind (map (fun n => (n, None)) s0 ++ s) false pos kw =
    if only (map fst s) kw then Some (combine s0 pos ++ map (fun nd => (fst nd, given kw (fst nd) (match snd nd with Some d => d | None => VNone end))) s, []) else None.
  Proof.
    intros L D ND. unfold M_Execution.bind. assert (BP : bind_positional Reg Block Dict User Other (map (fun n => (n, None)) s0 ++ s) pos = Some (combine s0 pos, s)).
    { clear - L. revert pos L. induction s0 as [|n s0 IH]; intros [|v pos] L; try discriminate L; [destruct s; reflexivity|]. cbn. rewrite IH by (cbn in L; lia). reflexivity. }
    rewrite BP. assert (FC : map fst (combine s0 pos) = s0). { clear - L. revert pos L. induction s0 as [|n s0 IH]; intros [|v pos] L; try discriminate L; [reflexivity|]. cbn. f_equal. apply IH. cbn in L. lia. }
    rewrite FC. assert (FM : map fst (map (fun n : string => (n, @None pyval)) s0 ++ s) = s0 ++ map fst s) by (rewrite map_app, map_map, map_id; reflexivity). rewrite FM. cbn [negb andb].
    destruct (only (map fst s) kw) eqn:O.
    - rewrite only_spec in O. replace (existsb (fun kv => mem (fst kv) s0) kw) with false.
      2:{ symmetry. apply existsb_false. intros kv I. destruct (mem (fst kv) s0) eqn:M; [|reflexivity]. apply mem_spec in M. exfalso. pose proof (O (fst kv) (in_map fst _ _ I)) as I2. clear - ND M I2. revert ND M. generalize (fst kv), I2. intros k I2' ND M. induction s0 as [|a s0 IH]; [destruct M|]. cbn in ND. inversion ND as [|? ? N1 N2]. subst. destruct M as [->|M]; [apply N1, in_or_app; right; exact I2'|apply IH; assumption]. }
      replace (filter (fun kv => negb (mem (fst kv) (s0 ++ map fst s))) kw) with (@nil (string * pyval)); [rewrite bind_kw_defaults by exact D; reflexivity|].
      symmetry. clear - O. induction kw as [|[k v] r IH]; [reflexivity|]. cbn. replace (mem k (s0 ++ map fst s)) with true; [apply IH; intros x I; apply O; right; exact I|]. symmetry. apply mem_spec, in_or_app. right. apply O. left. reflexivity.
    - destruct (existsb (fun kv => mem (fst kv) s0) kw) eqn:E; [reflexivity|]. rewrite existsb_false in E. destruct (filter (fun kv => negb (mem (fst kv) (s0 ++ map fst s))) kw) eqn:F; [|reflexivity]. exfalso. assert (only (map fst s) kw = true); [|congruence]. apply only_spec. intros k I. apply in_map_iff in I as (kv & <- & I). specialize (E kv I).
      destruct (mem (fst kv) (s0 ++ map fst s)) eqn:M; [apply mem_spec, in_app_or in M as [M|M]; [apply mem_spec in M; congruence|exact M]|]. assert (In kv []); [|contradiction]. rewrite <- F. apply filter_In. rewrite M. auto.
  Qed.
  (** A function with **kwargs whose parameters are all given by position. *)
  Lemma bind_var (s0 : list string) pos kw : length s0 = length pos ->
    bind (map (fun n => (n, None)) s0) true pos kw = if existsb (fun kv => mem (fst kv) s0) kw then None else Some (combine s0 pos, kw).
  Proof.
    intros L. unfold M_Execution.bind. assert (BP : bind_positional Reg Block Dict User Other (map (fun n => (n, None)) s0) pos = Some (combine s0 pos, [])).
    { clear - L. revert pos L. induction s0 as [|n s0 IH]; intros [|v pos] L; try discriminate L; [reflexivity|]. cbn. rewrite IH by (cbn in L; lia). reflexivity. }
    rewrite BP. assert (FC : map fst (combine s0 pos) = s0). { clear - L. revert pos L. induction s0 as [|n s0 IH]; intros [|v pos] L; try discriminate L; [reflexivity|]. cbn. f_equal. apply IH. cbn in L. lia. }
    rewrite FC. destruct (existsb (fun kv => mem (fst kv) s0) kw) eqn:E; [reflexivity|]. rewrite map_map, map_id. cbn [negb andb bind_keywords option_map]. rewrite app_nil_r. f_equal. f_equal. rewrite existsb_false in E.
    clear - E. induction kw as [|kv r IH]; [reflexivity|]. cbn. rewrite (E kv (or_introl eq_refl)). cbn. f_equal. apply IH. intros x I. apply E. right. exact I.
  Qed.
  (** Too many positional arguments. *)
  Lemma bind_many (s : signature Reg Block Dict User Other) v pos kw : length s < length pos -> bind s v pos kw = None.
  Proof. intros L. unfold M_Execution.bind. assert (BP : bind_positional Reg Block Dict User Other s pos = None); [|rewrite BP; reflexivity]. revert pos L. induction s as [|[n d] s IH]; intros [|x pos] L; cbn in *; try lia; [reflexivity|]. rewrite IH by lia. reflexivity. Qed.
  Lemma bind_few (s : list string) v (pos : list pyval) : length pos < length s -> bind (map (fun n => (n, None)) s) v pos [] = None.
  Proof.
    intros L. unfold M_Execution.bind. assert (BP : exists b r, bind_positional Reg Block Dict User Other (map (fun n => (n, None)) s) pos = Some (b, r) /\ exists n r', r = (n, None) :: r').
    { revert pos L. induction s as [|n s IH]; intros [|x pos] L; cbn in *; try lia; [do 2 eexists; split; [reflexivity|eauto]|]. destruct (IH pos ltac:(lia)) as (b & r & -> & n' & r' & ->). cbn. eauto 6. }
    destruct BP as (b & r & -> & n & r' & ->). cbn. destruct v; reflexivity.
  Qed.

  (** * The documented keywords reach the backend *)
  Definition run_names := ["values"; "state"; "backend"; "endianness"; "configuration"].
  Definition sample_names := ["values"; "state"; "n_shots"; "backend"; "noise"; "endianness"; "configuration"].
  Definition expectation_names := ["values"; "state"; "backend"; "diff_mode"; "measurement"; "noise"; "mitigation"; "endianness"; "configuration"].
  Notation or_dict := (or_dict Reg Block Dict User Other empty_dict).
  Notation as_backend := (as_backend Reg Block Dict User Other).
  Notation as_diff := (as_diff Reg Block Dict User Other).
  Notation as_list := (as_list Reg Block Dict User Other).
  Ltac nodup := repeat (constructor; [cbn; intuition discriminate|]); constructor.

  Lemma run_circuit_eq h c kw : run_circuit h [VCircuit c] kw =
    if only run_names kw then
      let b := as_backend (given kw "backend" (VBackend Pyqtorch)) in
      obind (backend_factory h b (default_diff b) (given kw "configuration" VNone)) (fun kh =>
      obind (convert_with Reg Block Dict User Other Conv convert (snd kh) (fst kh) c None) (fun conv =>
      obind (embedding_fn conv (params_of conv) (or_dict (given kw "values" VNone))) (fun emb =>
      obind (b_run (fst kh) conv emb (given kw "state" VNone) (given kw "endianness" VBig)) (fun r => Some (r, false, snd kh)))))
    else None.
  Proof.
    unfold M_Execution.run_circuit. change (run_signature Reg Block Dict User Other) with (map (fun n => (n, @None pyval)) ["circuit"] ++ [("values", Some VNone); ("state", Some VNone); ("backend", Some (VBackend Pyqtorch)); ("endianness", Some VBig); ("configuration", Some VNone)]).
    rewrite bind_full; [|reflexivity|cbn; intros n d I; intuition congruence|nodup]. change (map fst [("values", Some VNone); ("state", Some VNone); ("backend", Some (VBackend Pyqtorch)); ("endianness", Some VBig); ("configuration", Some VNone)]) with run_names.
    destruct (only run_names kw); [|reflexivity]. cbn [obind combine map app fst snd M_Execution.arg M_Execution.lookup String.eqb Ascii.eqb Bool.eqb]. cbv zeta. destruct (backend_factory h _ _ _) as [[k h']|]; reflexivity.
  Qed.
  Lemma sample_circuit_eq h c kw : sample_circuit h [VCircuit c] kw =
    if only sample_names kw then
      let b := as_backend (given kw "backend" (VBackend Pyqtorch)) in
      obind (backend_factory h b (default_diff b) (given kw "configuration" VNone)) (fun kh =>
      obind (convert_with Reg Block Dict User Other Conv convert (snd kh) (fst kh) c None) (fun conv =>
      obind (embedding_fn conv (params_of conv) (or_dict (given kw "values" VNone))) (fun emb =>
      obind (b_sample (fst kh) conv emb (given kw "n_shots" (VInt 100)) (given kw "state" VNone) (given kw "noise" VNone) VNone (given kw "endianness" VBig)) (fun r => Some (r, true, snd kh)))))
    else None.
  Proof.
    unfold M_Execution.sample_circuit. change (sample_signature Reg Block Dict User Other) with (map (fun n => (n, @None pyval)) ["circuit"] ++ [("values", Some VNone); ("state", Some VNone); ("n_shots", Some (VInt 100)); ("backend", Some (VBackend Pyqtorch)); ("noise", Some VNone); ("endianness", Some VBig); ("configuration", Some VNone)]).
    rewrite bind_full; [|reflexivity|cbn; intros n d I; intuition congruence|nodup]. change (map fst [("values", Some VNone); ("state", Some VNone); ("n_shots", Some (VInt 100)); ("backend", Some (VBackend Pyqtorch)); ("noise", Some VNone); ("endianness", Some VBig); ("configuration", Some VNone)]) with sample_names.
    destruct (only sample_names kw); [|reflexivity]. cbn [obind combine map app fst snd M_Execution.arg M_Execution.lookup String.eqb Ascii.eqb Bool.eqb]. cbv zeta. destruct (backend_factory h _ _ _) as [[k h']|]; reflexivity.
  Qed.
  Lemma expectation_circuit_eq h c obs kw : expectation_circuit h [VCircuit c; obs] kw =
    if only expectation_names kw then
      obind (as_diff (given kw "diff_mode" VNone)) (fun d =>
      obind (backend_factory h (as_backend (given kw "backend" (VBackend Pyqtorch))) d (given kw "configuration" VNone)) (fun kh =>
      obind (convert_with Reg Block Dict User Other Conv convert (snd kh) (fst kh) c (Some (as_list obs))) (fun conv =>
      obind (embedding_fn conv (params_of conv) (or_dict (given kw "values" VNone))) (fun emb =>
      obind (b_expectation (fst kh) conv emb (given kw "state" VNone) (given kw "measurement" VNone) (given kw "noise" VNone) (given kw "mitigation" VNone) (given kw "endianness" VBig)) (fun r =>
      Some (r, match d with None => false | Some _ => true end, snd kh))))))
    else None.
  Proof.
    unfold M_Execution.expectation_circuit. change (expectation_signature Reg Block Dict User Other) with (map (fun n => (n, @None pyval)) ["circuit"; "observable"] ++ [("values", Some VNone); ("state", Some VNone); ("backend", Some (VBackend Pyqtorch)); ("diff_mode", Some VNone);
     ("measurement", Some VNone); ("noise", Some VNone); ("mitigation", Some VNone); ("endianness", Some VBig); ("configuration", Some VNone)]).
    rewrite bind_full; [|reflexivity|cbn; intros n d I; intuition congruence|nodup]. change (map fst [("values", Some VNone); ("state", Some VNone); ("backend", Some (VBackend Pyqtorch)); ("diff_mode", Some VNone);
     ("measurement", Some VNone); ("noise", Some VNone); ("mitigation", Some VNone); ("endianness", Some VBig); ("configuration", Some VNone)]) with expectation_names.
    destruct (only expectation_names kw); [|reflexivity]. cbn [obind combine map app fst snd M_Execution.arg M_Execution.lookup String.eqb Ascii.eqb Bool.eqb]. destruct (as_diff _) as [d|]; [|reflexivity]. cbn [obind]. destruct (backend_factory h _ _ _) as [[k h']|]; reflexivity.
  Qed.

  (** [run] on a circuit: the keywords must be documented ones; the backend is made for them, the circuit converted, the values embedded. *)
  Theorem C66_run : forall h c kw r g h', run h [VCircuit c] kw = Some (r, g, h') <->
    (forall k, In k (map fst kw) -> In k run_names) /\ g = false /\
    let b := as_backend (given kw "backend" (VBackend Pyqtorch)) in
    exists k cf conv emb, backend_factory h b (match b with Pyqtorch => Some AD | _ => None end) (given kw "configuration" VNone) = Some (k, h') /\ nth_error h' (k_config k) = Some cf /\
      convert (k_name k) cf c None = Some conv /\ embedding_fn conv (params_of conv) (or_dict (given kw "values" VNone)) = Some emb /\
      b_run k conv emb (given kw "state" VNone) (given kw "endianness" VBig) = Some r.
  Proof.
    intros h c kw r g h'. cbn [M_Execution.run M_Execution.run_value]. rewrite run_circuit_eq. destruct (only run_names kw) eqn:O.
    2:{ split; [discriminate|]. intros (N & _). apply only_spec in N. congruence. }
    cbv zeta. set (b := as_backend _). replace (default_diff b) with (match b with Pyqtorch => Some AD | _ => None end) by (destruct b; reflexivity). unfold convert_with. split.
    - intros H. split; [apply only_spec, O|]. destruct (backend_factory h b _ _) as [[k h1]|]; [|discriminate H]. cbn [obind fst snd] in H. destruct (nth_error h1 (k_config k)) as [cf|] eqn:N; [|discriminate H]. cbn [obind] in H. destruct (convert _ _ _ _) as [conv|] eqn:C; [|discriminate H]. cbn [obind] in H. destruct (embedding_fn _ _ _) as [emb|] eqn:E; [|discriminate H]. cbn [obind] in H. destruct (b_run _ _ _ _ _) as [r'|] eqn:B; [|discriminate H]. injection H as <- <- <-.
      split; [reflexivity|]. exists k, cf, conv, emb. auto.
    - intros (_ & -> & k & cf & conv & emb & -> & N & C & E & B). cbn [obind fst snd]. rewrite N. cbn [obind]. rewrite C. cbn [obind]. rewrite E. cbn [obind]. rewrite B. reflexivity.
  Qed.
  Theorem C66_sample : forall h c kw r g h', sample h [VCircuit c] kw = Some (r, g, h') <->
    (forall k, In k (map fst kw) -> In k sample_names) /\ g = true /\
    let b := as_backend (given kw "backend" (VBackend Pyqtorch)) in
    exists k cf conv emb, backend_factory h b (match b with Pyqtorch => Some AD | _ => None end) (given kw "configuration" VNone) = Some (k, h') /\ nth_error h' (k_config k) = Some cf /\
      convert (k_name k) cf c None = Some conv /\ embedding_fn conv (params_of conv) (or_dict (given kw "values" VNone)) = Some emb /\
      b_sample k conv emb (given kw "n_shots" (VInt 100)) (given kw "state" VNone) (given kw "noise" VNone) VNone (given kw "endianness" VBig) = Some r.
  Proof.
    intros h c kw r g h'. cbn [M_Execution.sample]. rewrite sample_circuit_eq. destruct (only sample_names kw) eqn:O.
    2:{ split; [discriminate|]. intros (N & _). apply only_spec in N. congruence. }
    cbv zeta. set (b := as_backend _). replace (default_diff b) with (match b with Pyqtorch => Some AD | _ => None end) by (destruct b; reflexivity). unfold convert_with. split.
    - intros H. split; [apply only_spec, O|]. destruct (backend_factory h b _ _) as [[k h1]|]; [|discriminate H]. cbn [obind fst snd] in H. destruct (nth_error h1 (k_config k)) as [cf|] eqn:N; [|discriminate H]. cbn [obind] in H. destruct (convert _ _ _ _) as [conv|] eqn:C; [|discriminate H]. cbn [obind] in H. destruct (embedding_fn _ _ _) as [emb|] eqn:E; [|discriminate H]. cbn [obind] in H. destruct (b_sample _ _ _ _ _ _ _ _) as [r'|] eqn:B; [|discriminate H]. injection H as <- <- <-.
      split; [reflexivity|]. exists k, cf, conv, emb. auto.
    - intros (_ & -> & k & cf & conv & emb & -> & N & C & E & B). cbn [obind fst snd]. rewrite N. cbn [obind]. rewrite C. cbn [obind]. rewrite E. cbn [obind]. rewrite B. reflexivity.
  Qed.
  (** Gradients are recorded exactly if a differentiation mode is asked for. *)
  Theorem C66_expectation : forall h c obs kw r g h', expectation h [VCircuit c; obs] kw = Some (r, g, h') <->
    (forall k, In k (map fst kw) -> In k expectation_names) /\
    exists d k cf conv emb, (d = None /\ given kw "diff_mode" VNone = VNone /\ g = false \/ exists m, d = Some m /\ given kw "diff_mode" VNone = VDiff m /\ g = true) /\
      backend_factory h (as_backend (given kw "backend" (VBackend Pyqtorch))) d (given kw "configuration" VNone) = Some (k, h') /\ nth_error h' (k_config k) = Some cf /\
      convert (k_name k) cf c (Some (match obs with M_Execution.VList l => l | _ => [obs] end)) = Some conv /\ embedding_fn conv (params_of conv) (or_dict (given kw "values" VNone)) = Some emb /\
      b_expectation k conv emb (given kw "state" VNone) (given kw "measurement" VNone) (given kw "noise" VNone) (given kw "mitigation" VNone) (given kw "endianness" VBig) = Some r.
  Proof.
    intros h c obs kw r g h'. cbn [M_Execution.expectation]. rewrite expectation_circuit_eq. destruct (only expectation_names kw) eqn:O.
    2:{ split; [discriminate|]. intros (N & _). apply only_spec in N. congruence. }
    unfold convert_with. change (match obs with M_Execution.VList l => l | _ => [obs] end) with (as_list obs). split.
    - intros H. split; [apply only_spec, O|]. destruct (as_diff (given kw "diff_mode" VNone)) as [d|] eqn:D; [|discriminate H]. cbn [obind] in H.
      destruct (backend_factory h _ _ _) as [[k h1]|] eqn:BF; [|discriminate H]. cbn [obind fst snd] in H. destruct (nth_error h1 (k_config k)) as [cf|] eqn:N; [|discriminate H]. cbn [obind] in H. destruct (convert _ _ _ _) as [conv|] eqn:C; [|discriminate H]. cbn [obind] in H. destruct (embedding_fn _ _ _) as [emb|] eqn:E; [|discriminate H]. cbn [obind] in H. destruct (b_expectation _ _ _ _ _ _ _ _) as [r'|] eqn:B; [|discriminate H]. injection H as <- <- <-.
      exists d, k, cf, conv, emb. split; [|auto]. destruct (given kw "diff_mode" VNone); try discriminate D; injection D as <-; [left; auto|right; eauto].
    - intros (_ & d & k & cf & conv & emb & D & BF & N & C & E & B). assert (D' : as_diff (given kw "diff_mode" VNone) = Some d /\ g = match d with None => false | Some _ => true end) by (destruct D as [(-> & -> & ->)|(m & -> & -> & ->)]; split; reflexivity). destruct D' as [-> ->]. cbn [obind]. rewrite BF. cbn [obind fst snd]. rewrite N. cbn [obind]. rewrite C. cbn [obind]. rewrite E. cbn [obind]. rewrite B. reflexivity.
  Qed.

  (** * The forms of a program *)
  Theorem C66_circuit : forall r b c, QuantumCircuit r b = Some c <-> c = (r, b) /\ (b_qubits b <= r_qubits r \/ b_nonempty b = false \/ (b_analog b = true /\ b_global b = true)).
  Proof.
    intros r b c. unfold M_Execution.QuantumCircuit. destruct (b_analog b), (b_global b), (b_nonempty b); cbn [andb negb]; try (destruct (Nat.ltb_spec (r_qubits r) (b_qubits b))); split; try discriminate; try (intros [= <-]; split; [reflexivity|]); try (intros [-> [?|[?|[? ?]]]]; try discriminate; try reflexivity; try lia); auto.
  Qed.
  Lemma fits n b : b_qubits b = n -> QuantumCircuit (Register n) b = Some (Register n, b).
  Proof. intros <-. apply C66_circuit. split; [reflexivity|]. left. rewrite Hregister. lia. Qed.
  Lemma one_reserved names kw k : ~ In k names -> In k (map fst kw) -> only names kw = false.
  Proof. intros N I. destruct (only names kw) eqn:O; [|reflexivity]. rewrite only_spec in O. destruct (N (O k I)). Qed.
  Lemma clash_keys (kw : kwargs) s0 : existsb (fun kv => mem (fst kv) s0) kw = true -> exists k, In k s0 /\ In k (map fst kw).
  Proof. intros E. apply existsb_exists in E as (kv & I & M). apply mem_spec in M. exists (fst kv). split; [exact M|apply in_map, I]. Qed.
  Lemma absent names : (forall k, In k ["register"; "n_qubits"; "block"; "circuit"; "observable"] -> mem k names = false) -> forall k, In k ["register"; "n_qubits"; "block"; "circuit"; "observable"] -> ~ In k names.
  Proof. intros H k I J. apply mem_spec in J. rewrite (H k I) in J. discriminate J. Qed.
  Lemma run_nope : forall k, In k ["register"; "n_qubits"; "block"; "circuit"; "observable"] -> ~ In k run_names.
  Proof. apply absent. cbn. intuition subst; reflexivity. Qed.
  Lemma sample_nope : forall k, In k ["register"; "n_qubits"; "block"; "circuit"; "observable"] -> ~ In k sample_names.
  Proof. apply absent. cbn. intuition subst; reflexivity. Qed.
  Lemma expectation_nope : forall k, In k ["register"; "n_qubits"; "block"; "circuit"; "observable"] -> ~ In k expectation_names.
  Proof. apply absent. cbn. intuition subst; reflexivity. Qed.
  Ltac clash N E := apply clash_keys in E as (k & K1 & K2); rewrite (one_reserved _ _ k); [reflexivity|apply N; cbn in K1 |- *; intuition|exact K2].

  Lemma run_register_eq h r b kw : run h [VRegister r; VBlock b] kw = obind (QuantumCircuit r b) (fun c => run_circuit h [VCircuit c] kw).
  Proof.
    cbn [M_Execution.run M_Execution.run_value]. unfold M_Execution.run_register. change [("register", None); ("block", None)] with (map (fun n => (n, @None pyval)) ["register"; "block"]). rewrite bind_var by reflexivity. destruct (existsb _ kw) eqn:E; [|reflexivity].
    destruct (QuantumCircuit r b); [|reflexivity]. cbn [obind]. rewrite run_circuit_eq. clash run_nope E.
  Qed.
  Lemma sample_register_eq h r b kw : sample h [VRegister r; VBlock b] kw = obind (QuantumCircuit r b) (fun c => sample_circuit h [VCircuit c] kw).
  Proof.
    cbn [M_Execution.sample]. unfold M_Execution.sample_register. change [("register", None); ("block", None)] with (map (fun n => (n, @None pyval)) ["register"; "block"]). rewrite bind_var by reflexivity. destruct (existsb _ kw) eqn:E; [|reflexivity].
    destruct (QuantumCircuit r b); [|reflexivity]. cbn [obind]. rewrite sample_circuit_eq. clash sample_nope E.
  Qed.
  Lemma expectation_register_eq h r b obs kw : expectation h [VRegister r; VBlock b; obs] kw = obind (QuantumCircuit r b) (fun c => expectation_circuit h [VCircuit c; obs] kw).
  Proof.
    cbn [M_Execution.expectation]. unfold M_Execution.expectation_register. change [("register", None); ("block", None); ("observable", None)] with (map (fun n => (n, @None pyval)) ["register"; "block"; "observable"]). rewrite bind_var by reflexivity. destruct (existsb _ kw) eqn:E; [|reflexivity].
    destruct (QuantumCircuit r b); [|reflexivity]. cbn [obind]. rewrite expectation_circuit_eq. clash expectation_nope E.
  Qed.
  (** A register and a block mean the circuit; a number of qubits means Register(n); a block alone means Register(block.n_qubits). *)
  Theorem C66_forms_run : forall h b kw,
    (forall r, run h [VRegister r; VBlock b] kw = match QuantumCircuit r b with Some c => run h [VCircuit c] kw | None => None end) /\
    (forall n, run h [VInt n; VBlock b] kw = run h [VRegister (Register n); VBlock b] kw) /\
    run h [VBlock b] kw = if b_global b then None else run h [VCircuit (Register (b_qubits b), b)] kw.
  Proof.
    intros h b kw. split; [intros r; rewrite run_register_eq; destruct (QuantumCircuit r b); reflexivity|]. split.
    - intros n. cbn [M_Execution.run M_Execution.run_value]. unfold M_Execution.run_int. change [("n_qubits", None); ("block", None)] with (map (fun n => (n, @None pyval)) ["n_qubits"; "block"]). rewrite bind_var by reflexivity. destruct (existsb _ kw) eqn:E; [|reflexivity].
      change (None = run h [VRegister (Register n); VBlock b] kw). rewrite run_register_eq. destruct (QuantumCircuit _ b); [|reflexivity]. cbn [obind]. rewrite run_circuit_eq. clash run_nope E.
    - cbn [M_Execution.run M_Execution.run_value]. unfold M_Execution.run_block. change [("block", None)] with (map (fun n => (n, @None pyval)) ["block"]). rewrite bind_var by reflexivity. destruct (existsb _ kw) eqn:E.
      + destruct (b_global b); [reflexivity|]. cbn [obind]. rewrite run_circuit_eq. clash run_nope E.
      + cbn [obind combine fst snd M_Execution.arg M_Execution.lookup String.eqb Ascii.eqb Bool.eqb]. unfold n_qubits_block. destruct (b_global b); [reflexivity|]. cbn [obind]. change (run h [VRegister (Register (b_qubits b)); VBlock b] kw = run_circuit h [VCircuit (Register (b_qubits b), b)] kw). rewrite run_register_eq, fits by reflexivity. reflexivity.
  Qed.
  Theorem C66_forms_sample : forall h b kw,
    (forall r, sample h [VRegister r; VBlock b] kw = match QuantumCircuit r b with Some c => sample h [VCircuit c] kw | None => None end) /\
    (forall n, sample h [VInt n; VBlock b] kw = sample h [VRegister (Register n); VBlock b] kw) /\
    sample h [VBlock b] kw = if b_global b then None else sample h [VCircuit (Register (b_qubits b), b)] kw.
  Proof.
    intros h b kw. split; [intros r; rewrite sample_register_eq; destruct (QuantumCircuit r b); reflexivity|]. split.
    - intros n. cbn [M_Execution.sample]. unfold M_Execution.sample_int. change [("n_qubits", None); ("block", None)] with (map (fun n => (n, @None pyval)) ["n_qubits"; "block"]). rewrite bind_var by reflexivity. destruct (existsb _ kw) eqn:E; [|reflexivity].
      change (None = sample h [VRegister (Register n); VBlock b] kw). rewrite sample_register_eq. destruct (QuantumCircuit _ b); [|reflexivity]. cbn [obind]. rewrite sample_circuit_eq. clash sample_nope E.
    - cbn [M_Execution.sample]. unfold M_Execution.sample_block. change [("block", None)] with (map (fun n => (n, @None pyval)) ["block"]). rewrite bind_var by reflexivity. destruct (existsb _ kw) eqn:E.
      + destruct (b_global b); [reflexivity|]. cbn [obind]. rewrite sample_circuit_eq. clash sample_nope E.
      + cbn [obind combine fst snd M_Execution.arg M_Execution.lookup String.eqb Ascii.eqb Bool.eqb]. unfold n_qubits_block. destruct (b_global b); [reflexivity|]. cbn [obind]. change (sample h [VRegister (Register (b_qubits b)); VBlock b] kw = sample_circuit h [VCircuit (Register (b_qubits b), b)] kw). rewrite sample_register_eq, fits by reflexivity. reflexivity.
  Qed.
  Theorem C66_forms_expectation : forall h b obs kw,
    (forall r, expectation h [VRegister r; VBlock b; obs] kw = match QuantumCircuit r b with Some c => expectation h [VCircuit c; obs] kw | None => None end) /\
    (forall n, expectation h [VInt n; VBlock b; obs] kw = expectation h [VRegister (Register n); VBlock b; obs] kw) /\
    expectation h [VBlock b; obs] kw = if b_global b then None else expectation h [VCircuit (Register (b_qubits b), b); obs] kw.
  Proof.
    intros h b obs kw. split; [intros r; rewrite expectation_register_eq; destruct (QuantumCircuit r b); reflexivity|]. split.
    - intros n. rewrite expectation_register_eq. cbn [M_Execution.expectation]. unfold M_Execution.expectation_int. change [("n_qubits", None); ("block", None); ("observable", None)] with (map (fun n => (n, @None pyval)) ["n_qubits"; "block"; "observable"]). rewrite bind_var by reflexivity. destruct (existsb _ kw) eqn:E; [|reflexivity].
      destruct (QuantumCircuit _ b); [|reflexivity]. cbn [obind]. rewrite expectation_circuit_eq. clash expectation_nope E.
    - cbn [M_Execution.expectation]. unfold M_Execution.expectation_block. change [("block", None); ("observable", None)] with (map (fun n => (n, @None pyval)) ["block"; "observable"]). rewrite bind_var by reflexivity. destruct (existsb _ kw) eqn:E.
      + destruct (b_global b); [reflexivity|]. cbn [obind]. rewrite expectation_circuit_eq. clash expectation_nope E.
      + cbn [obind combine fst snd M_Execution.arg M_Execution.lookup String.eqb Ascii.eqb Bool.eqb]. unfold n_qubits_block. destruct (b_global b); [reflexivity|]. cbn [obind]. rewrite fits by reflexivity. reflexivity.
  Qed.
  (** Nothing else is accepted. *)
  Theorem C66_refused : forall h kw, run h [] kw = None /\ sample h [] kw = None /\ expectation h [] kw = None /\
    forall x rest, (forall c, x <> VCircuit c) -> (forall b, x <> VBlock b) -> (forall r, x <> VRegister r) -> (forall n, x <> VInt n) ->
    sample h (x :: rest) kw = None /\ expectation h (x :: rest) kw = None /\ ((forall l, x <> VList l) -> run h (x :: rest) kw = None).
  Proof. intros h kw. repeat (split; [reflexivity|]). intros x rest A B C D. destruct x; try (exfalso; eapply A; reflexivity); try (exfalso; eapply B; reflexivity); try (exfalso; eapply C; reflexivity); try (exfalso; eapply D; reflexivity); repeat split; intros L; try reflexivity. exfalso. eapply L. reflexivity. Qed.

  (** * Agreement with a QuantumModel *)
  Definition plain_values (v : pyval) : Prop := v = VNone \/ exists d, v = VDict d.
  Definition some_dict (v : pyval) : pyval := match v with M_Execution.VNone => VDict empty_dict | _ => v end.
  Lemma or_plain v : plain_values v -> or_dict v = some_dict v.
  Proof. intros [->|(d & ->)]; reflexivity. Qed.
  Theorem C66_model_run : forall h c kw, (forall k, In k (map fst kw) -> In k run_names) -> given kw "backend" (VBackend Pyqtorch) = VBackend Pyqtorch -> plain_values (given kw "values" VNone) ->
    run h [VCircuit c] kw = match QuantumModel h c VNone (VBackend Pyqtorch) (VDiff AD) VNone VNone VNone (given kw "configuration" VNone) with
                            | None => None
                            | Some (m, h') => option_map (fun r => (r, false, h')) (model_run m (given kw "values" VNone) (given kw "state" VNone) (given kw "endianness" VBig))
                            end.
  Proof.
    intros h c kw N B V. cbn [M_Execution.run M_Execution.run_value]. rewrite run_circuit_eq. rewrite (proj2 (only_spec _ _) N). cbv zeta. rewrite B, or_plain by exact V. unfold M_Execution.QuantumModel. cbn [M_Execution.as_backend M_Execution.as_diff obind default_diff bname_eqb].
    destruct (backend_factory h _ _ _) as [[k h']|]; [|reflexivity]. cbn [obind fst snd]. destruct (convert_with _ _ _ _ _ _ _ _ _ _ _) as [conv|]; [|reflexivity]. cbn [obind]. unfold M_Execution.model_run. cbn [q_conv q_params q_backend]. rewrite Hdict. change (match given kw "values" VNone with M_Execution.VNone => VDict empty_dict | _ => given kw "values" VNone end) with (some_dict (given kw "values" VNone)).
    destruct (embedding_fn _ _ _); [|reflexivity]. cbn [obind]. destruct (b_run _ _ _ _ _); reflexivity.
  Qed.
  Theorem C66_model_sample : forall h c kw, (forall k, In k (map fst kw) -> In k sample_names) -> given kw "backend" (VBackend Pyqtorch) = VBackend Pyqtorch -> plain_values (given kw "values" VNone) ->
    sample h [VCircuit c] kw = match QuantumModel h c VNone (VBackend Pyqtorch) (VDiff AD) VNone VNone VNone (given kw "configuration" VNone) with
                            | None => None
                            | Some (m, h') => option_map (fun r => (r, true, h')) (model_sample m (some_dict (given kw "values" VNone)) (given kw "n_shots" (VInt 100)) (given kw "state" VNone) (given kw "noise" VNone) VNone (given kw "endianness" VBig))
                            end.
  Proof.
    intros h c kw N B V. cbn [M_Execution.sample]. rewrite sample_circuit_eq. rewrite (proj2 (only_spec _ _) N). cbv zeta. rewrite B, or_plain by exact V. unfold M_Execution.QuantumModel. cbn [M_Execution.as_backend M_Execution.as_diff obind default_diff bname_eqb].
    destruct (backend_factory h _ _ _) as [[k h']|]; [|reflexivity]. cbn [obind fst snd]. destruct (convert_with _ _ _ _ _ _ _ _ _ _ _) as [conv|]; [|reflexivity]. cbn [obind]. unfold M_Execution.model_sample. cbn [q_conv q_params q_backend q_noise q_mitigation]. rewrite Hdict. destruct (embedding_fn _ _ _); [|reflexivity]. cbn [obind]. replace (default _ _ _ _ _ (given kw "noise" VNone) VNone) with (given kw "noise" VNone) by (destruct (given kw "noise" VNone); reflexivity). cbn [default].
    destruct (b_sample _ _ _ _ _ _ _ _); reflexivity.
  Qed.
  Theorem C66_model_expectation : forall h c obs kw m, (forall k, In k (map fst kw) -> In k expectation_names) -> given kw "diff_mode" VNone = VDiff m -> plain_values (given kw "values" VNone) -> obs <> VNone ->
    expectation h [VCircuit c; obs] kw = match QuantumModel h c obs (given kw "backend" (VBackend Pyqtorch)) (VDiff m) (given kw "measurement" VNone) (given kw "noise" VNone) (given kw "mitigation" VNone) (given kw "configuration" VNone) with
                            | None => None
                            | Some (q, h') => option_map (fun r => (r, true, h')) (model_expectation q (some_dict (given kw "values" VNone)) (given kw "state" VNone) VNone VNone VNone (given kw "endianness" VBig))
                            end.
  Proof.
    intros h c obs kw m N B V O. cbn [M_Execution.expectation]. rewrite expectation_circuit_eq. rewrite (proj2 (only_spec _ _) N). rewrite B, or_plain by exact V. unfold M_Execution.QuantumModel. cbn [M_Execution.as_diff obind].
    destruct (backend_factory h _ _ _) as [[k h']|]; [|reflexivity]. cbn [obind fst snd]. replace (match obs with M_Execution.VNone => None | _ => Some (as_list obs) end) with (Some (as_list obs)) by (destruct obs; try reflexivity; contradiction). destruct (convert_with _ _ _ _ _ _ _ _ _ _ _) as [conv|]; [|reflexivity]. cbn [obind]. unfold M_Execution.model_expectation. cbn [q_conv q_params q_backend q_noise q_mitigation q_measurement q_has_observable default]. rewrite Hdict. destruct (embedding_fn _ _ _); [|reflexivity]. cbn [obind].
    destruct (b_expectation _ _ _ _ _ _ _ _); reflexivity.
  Qed.
  (** The noise, mitigation and measurement given to a call are used instead of those the model was made with, and those of the model
      when the call gives none; an expectation needs a model with observables. *)
  Theorem C66_model_defaults : forall h c obs b d meas noise mit conf m h', QuantumModel h c obs b d meas noise mit conf = Some (m, h') ->
    forall values shots state noise' mit' e emb, embedding_fn (q_conv _ _ _ _ _ _ _ m) (q_params _ _ _ _ _ _ _ m) values = Some emb ->
    let instead v v0 := match v with M_Execution.VNone => v0 | _ => v end in
    model_sample m values shots state noise' mit' e = b_sample (q_backend _ _ _ _ _ _ _ m) (q_conv _ _ _ _ _ _ _ m) emb shots state (instead noise' noise) (instead mit' mit) e /\
    (obs <> VNone -> forall meas', model_expectation m values state meas' noise' mit' e = b_expectation (q_backend _ _ _ _ _ _ _ m) (q_conv _ _ _ _ _ _ _ m) emb state (instead meas' meas) (instead noise' noise) (instead mit' mit) e) /\
    (obs = VNone -> forall meas', model_expectation m values state meas' noise' mit' e = None).
  Proof.
    intros h c obs b d meas noise mit conf m h' H values shots state noise' mit' e emb Ee instead. unfold M_Execution.QuantumModel in H.
    destruct (as_diff d) as [[dm|]|]; try discriminate H. cbn [obind] in H. destruct (backend_factory h _ _ _) as [[k h1]|]; [|discriminate H]. cbn [obind fst snd] in H.
    destruct (convert_with _ _ _ _ _ _ _ _ _ _ _) as [conv|]; [|discriminate H]. cbn [obind] in H. injection H as <- <-.
    unfold M_Execution.model_sample, M_Execution.model_expectation. cbn [q_conv q_params q_backend q_noise q_mitigation q_measurement q_has_observable] in *. rewrite Ee. cbn [obind].
    split; [reflexivity|]. split; intros O meas'.
    - destruct obs; try reflexivity. contradiction.
    - subst obs. reflexivity.
  Qed.

  (** * Backends and configurations *)
  Lemma nth_write (h : heap User) : forall a c a', nth_error (write User h a c) a' = if Nat.eqb a a' then option_map (fun _ => c) (nth_error h a) else nth_error h a'.
  Proof. induction h as [|x h IH]; intros [|a] c [|a']; cbn; try reflexivity; [destruct (a =? a')%nat; reflexivity|apply IH]. Qed.
  Definition supported (b : bname) (d : option dmode) : Prop := match d with Some AD => b = Pyqtorch \/ b = Horqrux | Some Adjoint => b = Pyqtorch | _ => True end.
  (** A backend is made if it is installed, supports the mode and is given a fitting configuration; it uses expressions as parameters
      exactly for automatic differentiation on pyqtorch; the user's options are kept and no other configuration is touched. *)
  Theorem C66_factory : forall h b d cf, (forall u, cf <> M_Execution.VConfigDict Reg Block Dict User Other u) ->
    match backend_factory h b d cf with
    | None => (exists s, b = Unknown s) \/ ~ supported b d \/ (cf <> VNone /\ forall a c, cf = VConfig a -> nth_error h a = Some c -> c_class User c <> b)
    | Some (k, h') => (forall s, b <> Unknown s) /\ supported b d /\ k_name k = b /\ k_diff k = d /\
        (exists c, nth_error h' (k_config k) = Some c /\ c_class User c = b /\ (c_gate_params User c = false <-> b = Pyqtorch /\ d = Some AD) /\
          (cf = VNone /\ k_config k = length h /\ c_user User c = default_user b \/
           exists a c0, cf = VConfig a /\ k_config k = a /\ nth_error h a = Some c0 /\ c_class User c0 = b /\ c_user User c = c_user User c0)) /\
        forall a, a <> k_config k -> a < length h -> nth_error h' a = nth_error h a
    end.
  Proof.
    intros h b d cf ND. unfold M_Execution.backend_factory.
    assert (S0 : forall bb, (validate_diff_mode bb d = true <-> supported bb d) /\ (validate_diff_mode bb d = false <-> ~ supported bb d)) by (intros bb; destruct d as [[]|], bb; cbn; intuition congruence).
    destruct (import_backend b) eqn:IB; [|destruct b; try discriminate IB; left; eauto]. assert (U : forall s, b <> Unknown s) by (intros s ->; discriminate IB). destruct (S0 b) as [S1 S2]. clear S0.
    assert (W : forall a h0 c0 k h', nth_error h0 a = Some c0 -> c_class User c0 = b -> (if validate_diff_mode b d then obind (nth_error h0 a) (fun c => Some (Backend b d a, write User h0 a (set_backend_config User b d c))) else None) = Some (k, h') ->
       supported b d /\ k_name k = b /\ k_diff k = d /\ k_config k = a /\ (exists c, nth_error h' a = Some c /\ c_class User c = b /\ (c_gate_params User c = false <-> b = Pyqtorch /\ d = Some AD) /\ c_user User c = c_user User c0) /\ forall a', a' <> a -> nth_error h' a' = nth_error h0 a').
    { intros a h0 c0 k h' E1 E2 E. destruct (validate_diff_mode b d); [|discriminate E]. rewrite E1 in E. cbn [obind] in E. injection E as <- <-. split; [apply S1; reflexivity|]. repeat (split; [reflexivity|]). split.
      - exists (set_backend_config User b d c0). rewrite nth_write, Nat.eqb_refl, E1. split; [reflexivity|]. destruct b as [| | |s]; [| | |exfalso; apply (U s); reflexivity]; cbn; destruct d as [[]|]; cbn; intuition congruence.
      - intros a' NE. rewrite nth_write. destruct (Nat.eqb_spec a a'); [congruence|reflexivity]. }
    destruct cf; try (right; right; split; [discriminate|intros a' c' Q; discriminate Q]); [| |exfalso; eapply ND; reflexivity].
    - cbn [obind]. assert (NL : nth_error (h ++ [default_configuration User default_user b]) (length h) = Some (default_configuration User default_user b)) by (rewrite nth_error_app2, Nat.sub_diag by lia; reflexivity).
      destruct (if validate_diff_mode b d then _ else None) as [[k h']|] eqn:E.
      + destruct (W _ _ _ _ _ NL eq_refl E) as (W1 & W2 & W3 & W4 & (c & C1 & C2 & C3 & C4) & W6). split; [exact U|]. split; [exact W1|]. split; [exact W2|]. split; [exact W3|]. rewrite W4. split; [exists c; repeat (split; [assumption|]); left; repeat split; assumption|]. intros a NE L. rewrite W6, nth_error_app1 by assumption. reflexivity.
      + right. left. apply S2. destruct (validate_diff_mode b d); [|reflexivity]. rewrite NL in E. discriminate E.
    - destruct (nth_error h a) as [c0|] eqn:N; [|right; right; split; [discriminate|intros a' c' [= <-]; congruence]]. assert (BE : forall x y, bname_eqb x y = true <-> x = y) by (intros [] []; cbn; split; intros Q; try discriminate Q; try reflexivity; [apply String.eqb_eq in Q; congruence|injection Q as ->; apply String.eqb_refl]).
      destruct (bname_eqb (c_class User c0) b) eqn:Q.
      + cbn [obind]. apply BE in Q. destruct (if validate_diff_mode b d then _ else None) as [[k h']|] eqn:E.
        * destruct (W _ _ _ _ _ N Q E) as (W1 & W2 & W3 & W4 & (c & C1 & C2 & C3 & C4) & W6). split; [exact U|]. split; [exact W1|]. split; [exact W2|]. split; [exact W3|]. rewrite W4. split; [exists c; repeat (split; [assumption|]); right; exists a, c0; repeat split; assumption|]. intros a' NE _. apply W6, NE.
        * right. left. apply S2. destruct (validate_diff_mode b d); [|reflexivity]. rewrite N in E. discriminate E.
      + right. right. split; [discriminate|]. intros a' c' [= <-] N'. rewrite N in N'. injection N' as <-. intros Q'. apply BE in Q'. congruence.
  Qed.

  (** Single-qubit composition is on exactly on pyqtorch for a default configuration; on the other backends a given configuration keeps
      what it says. *)
  Theorem C66_composition : forall h b d k h', backend_factory h b d VNone = Some (k, h') ->
    exists c, nth_error h' (k_config k) = Some c /\ (c_composition User c = true <-> b = Pyqtorch).
  Proof.
    intros h b d k h'. unfold M_Execution.backend_factory. destruct (import_backend b) eqn:IB; [|discriminate]. cbn [obind].
    destruct (validate_diff_mode b d); [|discriminate]. rewrite nth_error_app2, Nat.sub_diag by lia. cbn [nth_error obind]. intros [= <- <-].
    exists (set_backend_config User b d (default_configuration User default_user b)). cbn [k_config]. split.
    - rewrite nth_write, Nat.eqb_refl, nth_error_app2, Nat.sub_diag by lia. reflexivity.
    - destruct b; cbn; split; intros Q; try discriminate Q; reflexivity.
  Qed.
  Theorem C66_composition_kept : forall h b d a c0 k h', nth_error h a = Some c0 -> b <> Pyqtorch -> backend_factory h b d (VConfig a) = Some (k, h') ->
    exists c, nth_error h' (k_config k) = Some c /\ c_composition User c = c_composition User c0.
  Proof.
    intros h b d a c0 k h' N NP. unfold M_Execution.backend_factory. destruct (import_backend b) eqn:IB; [|discriminate]. rewrite N.
    destruct (bname_eqb (c_class User c0) b); [|discriminate]. cbn [obind]. destruct (validate_diff_mode b d); [|discriminate]. rewrite N. cbn [obind]. intros [= <- <-].
    exists (set_backend_config User b d c0). cbn [k_config]. split; [rewrite nth_write, Nat.eqb_refl, N; reflexivity|]. destruct b; try reflexivity. contradiction NP. reflexivity.
  Qed.

  (** * Where the calls deviate *)
  (** Running a list of circuits always fails: the results are collected with tuple += Tensor. *)
  Theorem C66_list_refuted : concat [] = None -> forall h cs kw, run h [VList cs] kw = None.
  Proof.
    intros C0 h cs kw. cbn [M_Execution.run M_Execution.run_value]. destruct (bind _ true _ kw) as [e|]; [|reflexivity]. cbn [obind]. destruct cs as [|c r]; [cbn [obind fst]; rewrite C0; reflexivity|]. cbn. destruct (run_value c h [] (snd e)); reflexivity.
  Qed.
  (** The documentation lets [values] follow the observable by position; with a block, or a register and a block, that is an error. *)
  Theorem C66_block_values_refuted : forall h b obs v, expectation h [VBlock b; obs; v] [] = None /\ (forall r, expectation h [VRegister r; VBlock b; obs; v] [] = None) /\ run h [VBlock b; v] [] = None /\ sample h [VBlock b; v] [] = None.
  Proof. intros. repeat split; intros; cbn; reflexivity. Qed.
  (** In the documented order noise is the seventh argument of [expectation]; passed there it is taken as the measurement protocol. *)
  Theorem C66_order_refuted : forall h c obs v s b d noise, expectation h [VCircuit c; obs; v; s; b; d; noise] [] = expectation h [VCircuit c; obs] [("values", v); ("state", s); ("backend", b); ("diff_mode", d); ("measurement", noise)].
  Proof. intros. reflexivity. Qed.
  (** A user's configuration for pyqtorch that switches the composition of single-qubit gates off gets it switched on. *)
  Theorem C66_composition_refuted : forall h a c d, nth_error h a = Some c -> c_class User c = Pyqtorch -> exists k h' c', backend_factory h Pyqtorch d (VConfig a) = Some (k, h') /\ nth_error h' a = Some c' /\ c_composition User c' = true.
  Proof.
    intros h a c d N C. unfold M_Execution.backend_factory. cbn [import_backend]. rewrite N, C. cbn [bname_eqb obind]. replace (validate_diff_mode Pyqtorch d) with true by (destruct d as [[]|]; reflexivity). rewrite N. cbn [obind]. do 3 eexists. split; [reflexivity|]. split; [rewrite nth_write, Nat.eqb_refl, N; reflexivity|reflexivity].
  Qed.
  (** Two backends made with the same configuration object share it: making the second one for automatic differentiation changes what
      the first one, made for the parameter shift rule, converts its programs with. *)
  Theorem C66_shared_refuted : forall h a c, nth_error h a = Some c -> c_class User c = Pyqtorch -> exists k1 h1 k2 h2 c1 c2, backend_factory h Pyqtorch (Some Gpsr) (VConfig a) = Some (k1, h1) /\ backend_factory h1 Pyqtorch (Some AD) (VConfig a) = Some (k2, h2) /\
    nth_error h1 (k_config k1) = Some c1 /\ c_gate_params User c1 = true /\ nth_error h2 (k_config k1) = Some c2 /\ c_gate_params User c2 = false.
  Proof.
    intros h a c N C. pose proof (C66_factory h Pyqtorch (Some Gpsr) (VConfig a) ltac:(discriminate)) as F1. destruct (backend_factory h Pyqtorch (Some Gpsr) (VConfig a)) as [[k1 h1]|] eqn:E1.
    2:{ exfalso. destruct F1 as [(s & Q)|[Q|[_ Q]]]; [discriminate Q|apply Q; exact I|exact (Q a c eq_refl N C)]. }
    destruct F1 as (_ & _ & _ & _ & (c1 & N1 & C1 & G1 & D1) & _). destruct D1 as [(Q & _)|(a' & c0 & [= <-] & K1 & _)]; [discriminate Q|]. rewrite K1 in N1.
    pose proof (C66_factory h1 Pyqtorch (Some AD) (VConfig a) ltac:(discriminate)) as F2. destruct (backend_factory h1 Pyqtorch (Some AD) (VConfig a)) as [[k2 h2]|] eqn:E2.
    2:{ exfalso. destruct F2 as [(s & Q)|[Q|[_ Q]]]; [discriminate Q|apply Q; left; reflexivity|exact (Q a c1 eq_refl N1 C1)]. }
    destruct F2 as (_ & _ & _ & _ & (c2 & N2 & C2 & G2 & D2) & _). destruct D2 as [(Q & _)|(a' & c0' & [= <-] & K2 & _)]; [discriminate Q|]. rewrite K2 in N2.
    exists k1, h1, k2, h2, c1, c2. rewrite K1. split; [reflexivity|]. split; [exact E2|]. split; [exact N1|]. split; [|split; [exact N2|apply G2; split; reflexivity]]. destruct (c_gate_params User c1); [reflexivity|]. destruct (proj1 G1 eq_refl) as [_ Q]. discriminate Q.
  Qed.
End C66.

(** * An instance: blocks are numbers of qubits with a flag for global support, converted programs record the circuit and how they were
    converted, and results record the call. *)
Definition case_block := (nat * bool)%type.
Notation cval := (pyval nat case_block nat unit nat).
Definition case_conv := (nat * case_block * bool * option (list cval))%type.
Definition case_convert (b : bname) (c : config unit) (p : circuit nat case_block) (o : option (list cval)) : option case_conv := Some (p, c_gate_params unit c, o).
Definition case_embed (c : case_conv) (p : unit) (v : cval) : option cval := Some v.
Definition case_result := (case_conv * list cval)%type.
Definition case_run (k : backend) (c : case_conv) (e s en : cval) : option case_result := Some (c, [e; s; en]).
Definition case_samples (k : backend) (c : case_conv) (e n s no mi en : cval) : option case_result := Some (c, [e; n; s; no; mi; en]).
Definition case_expect (k : backend) (c : case_conv) (e s me no mi en : cval) : option case_result := Some (c, [e; s; me; no; mi; en]).
Definition case_concat (l : list case_result) : option case_result := match l with [] => None | r :: _ => Some r end.
Notation c_run := (run nat case_block nat unit nat 0 (fun n => n) (fun r => r) fst (fun _ => true) (fun _ => false) snd (fun _ => tt) (fun _ _ => None) case_conv unit cval case_result case_convert (fun _ => tt) case_embed case_run case_concat).
Notation c_sample := (sample nat case_block nat unit nat 0 (fun n => n) (fun r => r) fst (fun _ => true) (fun _ => false) snd (fun _ => tt) (fun _ _ => None) case_conv unit cval case_result case_convert (fun _ => tt) case_embed case_samples).
Notation c_expectation := (expectation nat case_block nat unit nat 0 (fun n => n) (fun r => r) fst (fun _ => true) (fun _ => false) snd (fun _ => tt) (fun _ _ => None) case_conv unit cval case_result case_convert (fun _ => tt) case_embed case_expect).
Example C66_hypotheses : (forall n : nat, (fun r : nat => r) ((fun n : nat => n) n) = n) /\ (forall c p v, case_embed c ((fun p => p) p) v = case_embed c p v) /\ case_concat [] = None.
Proof. repeat split. Qed.
(** A block on two qubits is run on Register(2) with the given values and state. *)
Example C66_run_case : exists h', c_run [] [VBlock _ _ _ _ _ (2, false)] [("state", VOther _ _ _ _ _ 7); ("values", VDict _ _ _ _ _ 3)] = Some (((2, (2, false)), false, None), [VDict _ _ _ _ _ 3; VOther _ _ _ _ _ 7; VBig _ _ _ _ _], false, h').
Proof. eexists. reflexivity. Qed.
Example C66_sample_case : exists h', c_sample [] [VInt _ _ _ _ _ 3; VBlock _ _ _ _ _ (2, false)] [("n_shots", VInt _ _ _ _ _ 5)] = Some (((3, (2, false)), false, None), [VDict _ _ _ _ _ 0; VInt _ _ _ _ _ 5; VNone _ _ _ _ _; VNone _ _ _ _ _; VNone _ _ _ _ _; VBig _ _ _ _ _], true, h').
Proof. eexists. reflexivity. Qed.
Example C66_expectation_case : exists h', c_expectation [] [VBlock _ _ _ _ _ (2, false); VBlock _ _ _ _ _ (1, false)] [("diff_mode", VDiff _ _ _ _ _ Gpsr)] = Some (((2, (2, false)), true, Some [VBlock _ _ _ _ _ (1, false)]), [VDict _ _ _ _ _ 0; VNone _ _ _ _ _; VNone _ _ _ _ _; VNone _ _ _ _ _; VNone _ _ _ _ _; VBig _ _ _ _ _], true, h').
Proof. eexists. reflexivity. Qed.
(** A global block needs a register; a register that is too small is refused. *)
Example C66_refused_case : c_run [] [VBlock _ _ _ _ _ (1, true)] [] = None /\ c_run [] [VInt _ _ _ _ _ 2; VBlock _ _ _ _ _ (1, true)] [] <> None /\ c_run [] [VInt _ _ _ _ _ 1; VBlock _ _ _ _ _ (2, false)] [] = None.
Proof. repeat split. discriminate. Qed.
(** Each circuit of a list can be run, the list cannot. *)
Example C66_list_case : c_run [] [VCircuit _ _ _ _ _ (2, (2, false))] [] <> None /\ c_run [] [VList _ _ _ _ _ [VCircuit _ _ _ _ _ (2, (2, false))]] [] = None.
Proof. split; [discriminate|]. apply C66_list_refuted. reflexivity. Qed.
Example C66_shared_case : nth_error [Config unit Pyqtorch true false tt] 0 = Some (Config unit Pyqtorch true false tt) /\ c_class unit (Config unit Pyqtorch true false tt) = Pyqtorch /\ c_composition unit (Config unit Pyqtorch true false tt) = false.
Proof. repeat split. Qed.

Print Assumptions C66_run.
Print Assumptions C66_sample.
Print Assumptions C66_expectation.
Print Assumptions C66_circuit.
Print Assumptions C66_forms_run.
Print Assumptions C66_forms_sample.
Print Assumptions C66_forms_expectation.
Print Assumptions C66_refused.
Print Assumptions C66_model_run.
Print Assumptions C66_model_sample.
Print Assumptions C66_model_expectation.
Print Assumptions C66_model_defaults.
Print Assumptions C66_factory.
Print Assumptions C66_composition.
Print Assumptions C66_composition_kept.
Print Assumptions C66_list_refuted.
Print Assumptions C66_block_values_refuted.
Print Assumptions C66_order_refuted.
Print Assumptions C66_composition_refuted.
Print Assumptions C66_shared_refuted.
