(** C67: the pulses that the Pulser backend plays for a circuit. *)
From Coq Require Import String Reals List Arith Bool Lia Lra.
From Coquelicot Require Import Coquelicot.
From Coq Require Import List.
From Verif Require Import M_Tensor M_Transpile M_PSR P_Readout M_Waveforms P_Waveforms M_Pulses P_Hea.
Import ListNotations.
Open Scope R_scope.

(** * Specification *)
(** The length of a waveform in ns and its integral in rad. *)
Definition wf_length (w : list segment) : R := fold_right Rplus 0 (map fst w).
Definition wf_area (w : list segment) : R := fold_right Rplus 0 (map (fun s => fst s * (fst (snd s) + snd (snd s)) / 2 / 1000) w).
(** The parts of a block that are not composite, from left to right. *)
Fixpoint leaves (b : pblock) : list pblock := match b with PComposite _ l => flat_map leaves l | _ => [b] end.
(** The pulses of a sequence, with the channels and protocols, and the declared variables. *)
Definition pulses (evs : list event) : list (pulse * channel_name * protocol) := flat_map (fun e => match e with Add p c pr => [(p, c, pr)] | _ => [] end) evs.
Definition variables (evs : list event) : list string := flat_map (fun e => match e with Variable_ u => [u] | _ => [] end) evs.
Definition nonempty (s : psupport) : Prop := match s with Global => True | Local qs => qs <> [] end.
(** The rotation exp(-i a X / 2). *)
Definition rx_matrix (a : R) : (C * C) * (C * C) := ((RtoC (cos (a / 2)), (0, - sin (a / 2))), ((0, - sin (a / 2)), RtoC (cos (a / 2)))).
Definition scaled (z : C) (m : (C * C) * (C * C)) : (C * C) * (C * C) := ((Cmult z (fst (fst m)), Cmult z (snd (fst m))), (Cmult z (fst (snd m)), Cmult z (snd (snd m)))).
Definition no_settings := Configuration None None None.
Definition positive (ch : channel) : Prop := 0 < clock_period ch /\ 0 < min_duration ch /\ 0 < max_amp ch /\ 0 < max_abs_detuning ch.
Definition positive_settings (cf : configuration) : Prop :=
  (forall x, amplitude_local cf = Some x -> 0 < x) /\ (forall x, amplitude_global cf = Some x -> 0 < x) /\ (forall x, config_detuning cf = Some x -> 0 < x).

(** * Waveforms *)
Lemma area_square w : wf_area (square w) = delivered w.
Proof. unfold wf_area, square, delivered. cbn. field. Qed.
Lemma length_square w : wf_length (square w) = fst w.
Proof. unfold wf_length, square. cbn. ring. Qed.
Lemma area_constant d v : wf_area (constant d v) = d * v / 1000.
Proof. unfold wf_area, constant. cbn. field. Qed.
Lemma length_constant d v : wf_length (constant d v) = d.
Proof. unfold wf_length, constant. cbn. ring. Qed.
Lemma area_app a b : wf_area (a ++ b) = wf_area a + wf_area b.
Proof. unfold wf_area. induction a as [|s a IH]; cbn [app map fold_right]; [ring|]. rewrite IH. ring. Qed.
Lemma length_app_wf a b : wf_length (a ++ b) = wf_length a + wf_length b.
Proof. unfold wf_length. induction a as [|s a IH]; cbn [app map fold_right]; [ring|]. rewrite IH. ring. Qed.
Lemma fst_from_duration a m1 m2 c k : fst (from_duration a m1 c k) = fst (from_duration a m2 c k).
Proof. reflexivity. Qed.

Section Blocks.
  Variables (fuel : nat) (rho : string -> R) (lc gc : channel) (cf : configuration) (n : nat) (nn : bool).
  Notation run := (add_pulses fuel rho lc gc cf n nn).
  Notation val := (value rho).

  (** What is accepted. *)
  Fixpoint supported (b : pblock) : Prop :=
    match b with
    | PInteraction _ s => nn = true /\ nonempty s /\ match s with Global => True | Local qs => Forall (fun q => (q < n)%nat) qs end
    | PRotation _ w _ d s => nn = true /\ nonempty s /\ ~ (val w = 0 /\ val d = 0)
    | PEntanglement _ s => nn = true /\ nonempty s
    | PDigital _ _ _ => True
    | PComposite analog l => (analog = true -> nn = true) /\ l <> [] /\ fold_right (fun b P => supported b /\ P) True l
    | POther _ => False
    end.
  Lemma pblock_ind' (P : pblock -> Prop) : (forall t s, P (PInteraction t s)) -> (forall a w p d s, P (PRotation a w p d s)) -> (forall t s, P (PEntanglement t s)) ->
    (forall ax a q, P (PDigital ax a q)) -> (forall an l, Forall P l -> P (PComposite an l)) -> (forall qs, P (POther qs)) -> forall b, P b.
  Proof.
    intros H1 H2 H3 H4 H5 H6. fix F 1. intros [t s|a w p d s|t s|ax a q|an l|qs]; [apply H1|apply H2|apply H3|apply H4| |apply H6].
    apply H5. induction l as [|b l IH]; constructor; [apply F|exact IH].
  Qed.
  Lemma osequence_inv {A} (l : list (option A)) xs : osequence l = Some xs -> l = map Some xs.
  Proof. revert xs. induction l as [|[a|] l IH]; intros xs H; cbn in H; [injection H as <-; reflexivity| |discriminate]. destruct (osequence l) as [ys|]; [|discriminate]. injection H as <-. cbn. now rewrite (IH ys). Qed.
  Lemma osequence_map_Some {A} (xs : list A) : osequence (map Some xs) = Some xs.
  Proof. induction xs as [|x xs IH]; [reflexivity|]. cbn. now rewrite IH. Qed.
  Lemma run_composite an l : run (PComposite an l) = if negb (existsb has_support l) then None else if an && negb nn then None else in_order (map run l).
  Proof. destruct an; reflexivity. Qed.
  Lemma norm_zero a b : sqrt (a ^ 2 + b ^ 2) = 0 <-> a = 0 /\ b = 0.
  Proof. split; [|intros [-> ->]; replace (0 ^ 2 + 0 ^ 2) with 0 by ring; apply sqrt_0]. intros H. apply sqrt_eq_0 in H; [|pose proof (pow2_ge_0 a); pose proof (pow2_ge_0 b); lra]. split; nra. Qed.
  Lemma support_nonempty s : match s with Global => true | Local qs => negb (Nat.eqb (length qs) 0) end = true <-> nonempty s.
  Proof. destruct s as [|[|q qs]]; cbn; split; try congruence; try easy. Qed.
  Lemma run_has_support b evs : run b = Some evs -> has_support b = true.
  Proof. destruct b; cbn [add_pulses]; destruct (has_support _); try reflexivity; discriminate. Qed.

  Theorem C67_accepts : positive lc -> positive gc -> positive_settings cf -> forall b, (exists evs, run b = Some evs) <-> supported b.
  Proof.
    intros PL PG PS. destruct PL as (L1 & L2 & L3 & L4), PG as (G1 & G2 & G3 & G4), PS as (S1 & S2 & S3).
    assert (AG : 0 < or_else (amplitude_global cf) (max_amp gc)) by (destruct (amplitude_global cf) as [x|]; cbn; [now apply S2|exact G3]).
    assert (AL : 0 < or_else (amplitude_local cf) (max_amp lc)) by (destruct (amplitude_local cf) as [x|]; cbn; [now apply S1|exact L3]).
    assert (AD : 0 < or_else (config_detuning cf) (max_abs_detuning lc)) by (destruct (config_detuning cf) as [x|]; cbn; [now apply S3|exact L4]).
    induction b as [t s|a w p d s|t s|ax a q|an l IH|qs] using pblock_ind'.
    - cbn [supported]. rewrite <- support_nonempty. cbn [add_pulses has_support is_analog andb]. destruct (match s with Global => true | Local qs => negb (length qs =? 0)%nat end) eqn:E; cbn [negb]; [|split; [intros [? H]; discriminate H|intros (_ & H & _); discriminate H]].
      destruct nn; cbn [negb andb]; [|split; [intros [? H]; discriminate H|intros (H & _); discriminate H]].
      destruct s as [|qs]; [split; [tauto|intros _; eexists; reflexivity]|]. rewrite Forall_forall. destruct (forallb (fun q => Nat.ltb q n) qs) eqn:F.
      + rewrite forallb_forall in F. split; [intros _; repeat split; intros q Q; apply F in Q; now apply Nat.ltb_lt|eauto].
      + split; [intros [? H]; discriminate H|]. intros (_ & _ & H). assert (forallb (fun q => Nat.ltb q n) qs = true) by (apply forallb_forall; intros q Q; apply Nat.ltb_lt, H, Q). congruence.
    - cbn [supported]. rewrite <- support_nonempty. cbn [add_pulses has_support is_analog andb]. destruct (match s with Global => true | Local qs => negb (length qs =? 0)%nat end) eqn:E; cbn [negb]; [|split; [intros [? H]; discriminate H|intros (_ & H & _); discriminate H]].
      destruct nn; cbn [negb andb]; [|split; [intros [? H]; discriminate H|intros (H & _); discriminate H]]. rewrite <- norm_zero.
      unfold analog_rot_pulse. destruct (Req_EM_T (sqrt (val w ^ 2 + val d ^ 2)) 0) as [Z|Z]; destruct s; cbn [option_map]; split; try (intros [? H]; discriminate H); try (intros (_ & _ & H); contradiction); eauto.
    - cbn [supported]. rewrite <- support_nonempty. cbn [add_pulses has_support is_analog andb]. destruct (match s with Global => true | Local qs => negb (length qs =? 0)%nat end) eqn:E; cbn [negb]; [|split; [intros [? H]; discriminate H|intros (_ & H); discriminate H]].
      destruct nn; cbn [negb andb]; [|split; [intros [? H]; discriminate H|intros (H & _); discriminate H]]. split; [tauto|intros _].
      destruct (C46_from_area (PI / 2) _ _ _ (Rlt_le _ _ PI2_RGT_0) AG G1 G2 fuel) as (x & y & F & _). unfold entangle_pulse. rewrite F. cbn [option_map]. eauto.
    - cbn [supported add_pulses has_support is_analog negb andb]. split; [tauto|intros _].
      destruct (C46_from_area (Rabs (val a)) _ _ _ (Rabs_pos _) AL L1 L2 fuel) as (x & y & F & _).
      destruct ax; unfold digital_xy_rot_pulse, digital_z_rot_pulse; [rewrite F; cbn [option_map]; eauto..|]. destruct (Req_EM_T _ 0) as [Z|Z]; [exfalso; lra|cbn [option_map]; eauto].
    - rewrite run_composite. cbn [supported].
      assert (EQ : (exists evs, in_order (map run l) = Some evs) <-> fold_right (fun b P => supported b /\ P) True l).
      { clear S1 S2 S3. induction IH as [|b l Hb _ IH]; [cbn; split; [tauto|unfold in_order; cbn; eauto]|]. cbn [fold_right map]. rewrite <- Hb, <- IH. unfold in_order. cbn [osequence]. destruct (run b) as [e|]; cbn [obind option_map]; [|split; [intros [? H]; discriminate H|intros [[? H] _]; discriminate H]].
        destruct (osequence (map run l)) as [es|]; cbn [obind option_map]; [split; [intros _; split; eauto|intros _; eauto]|split; [intros [? H]; discriminate H|intros [_ [? H]]; discriminate H]]. }
      assert (HS : fold_right (fun b P => supported b /\ P) True l -> l <> [] -> existsb has_support l = true).
      { intros F NE. apply EQ in F. destruct F as [evs F]. destruct l as [|b l]; [congruence|]. cbn [map] in F. unfold in_order in F. cbn [osequence] in F. destruct (run b) as [e|] eqn:R; [|discriminate F]. cbn. rewrite (run_has_support _ _ R). reflexivity. }
      destruct (existsb has_support l) eqn:E; cbn [negb].
      + assert (NE : l <> []) by (intros ->; discriminate E). destruct (an && negb nn) eqn:B.
        * split; [intros [? H]; discriminate H|]. apply andb_prop in B. destruct B as [-> B]. intros (H & _). rewrite (H eq_refl) in B. discriminate B.
        * rewrite EQ. split; [|tauto]. intros H. split; [|split; assumption]. intros ->. destruct nn; [reflexivity|discriminate B].
      + split; [intros [? H]; discriminate H|]. intros (_ & NE & F). specialize (HS F NE). discriminate HS.
    - split; [|intros []]. intros [? H]. cbn [add_pulses] in H. destruct (negb (has_support (POther qs))); [discriminate H|]. cbn [is_analog andb] in H. discriminate H.
  Qed.

  (** The calls are those of the leaves, from left to right. *)
  Theorem C67_order : forall b evs, run b = Some evs -> exists parts, Forall2 (fun leaf e => run leaf = Some e) (leaves b) parts /\ evs = concat parts.
  Proof.
    induction b as [t s|a w p d s|t s|ax a q|an l IH|qs] using pblock_ind'; intros evs H; try (exists [evs]; cbn [leaves concat]; rewrite app_nil_r; split; [constructor; [exact H|constructor]|reflexivity]).
    rewrite run_composite in H. destruct (negb (existsb has_support l)); [discriminate H|]. destruct (an && negb nn); [discriminate H|]. unfold in_order in H. destruct (osequence (map run l)) as [ess|] eqn:O; [|discriminate H]. injection H as <-. apply osequence_inv in O.
    cbn [leaves]. revert ess O. induction IH as [|b l Hb _ IHl]; intros ess O.
    - destruct ess; [|discriminate O]. exists []. split; [constructor|reflexivity].
    - destruct ess as [|e ess]; [discriminate O|]. cbn [map] in O. injection O as O1 O2. destruct (Hb e O1) as (p1 & F1 & ->). destruct (IHl ess O2) as (p2 & F2 & E2). exists (p1 ++ p2). split; [apply Forall2_app; assumption|]. cbn [concat]. rewrite E2, concat_app. reflexivity.
  Qed.

  (** One pulse for each leaf, except the interactions on some qubits only; all pulses wait for the previous ones. *)
  Definition played (b : pblock) : bool := match b with PInteraction _ (Local _) => false | _ => true end.
  Definition channel_of (b : pblock) : channel_name :=
    match b with PInteraction _ _ | PRotation _ _ _ _ Global | PEntanglement _ _ => GLOBAL_CHANNEL | _ => LOCAL_CHANNEL end.
  Definition expressions (b : pblock) : list string :=
    flat_map (fun p => match p with Num _ => [] | Sym u => [u] end)
      match b with PInteraction t Global => [t] | PRotation a w p d _ => [a; w; p; d] | PEntanglement t _ => [t] | PDigital _ a _ => [a] | _ => [] end.
  Lemma pulses_app a b : pulses (a ++ b) = pulses a ++ pulses b.
  Proof. apply flat_map_app. Qed.
  Lemma variables_app a b : variables (a ++ b) = variables a ++ variables b.
  Proof. apply flat_map_app. Qed.
  Lemma pulses_declare p : pulses (declare p) = [].
  Proof. destruct p; reflexivity. Qed.
  Lemma variables_declare p : variables (declare p) = match p with Num _ => [] | Sym u => [u] end.
  Proof. destruct p; reflexivity. Qed.
  Lemma leaf_pulses b evs : leaves b = [b] -> run b = Some evs ->
    map (fun x => (snd (fst x), snd x)) (pulses evs) = (if played b then [(channel_of b, WaitForAll)] else []) /\ variables evs = expressions b.
  Proof.
    intros LV H. destruct b as [t s|a w p d s|t s|ax a q|an l|qs]; cbn [add_pulses] in H; destruct (negb (has_support _)); try discriminate H; destruct (is_analog _ && negb nn); try discriminate H.
    - destruct s as [|qs]; [injection H as <-; rewrite pulses_app, variables_app, pulses_declare, variables_declare; split; [reflexivity|cbn; now rewrite !app_nil_r]|]. destruct (forallb _ qs); [|discriminate H]. injection H as <-. split; reflexivity.
    - destruct s as [|qs]; destruct (analog_rot_pulse _ _ _ _ _ _); try discriminate H; injection H as <-; rewrite !pulses_app, !variables_app, !pulses_declare, !variables_declare; (split; [reflexivity|]); cbn; rewrite !app_nil_r, <- ?app_assoc; reflexivity.
    - destruct (entangle_pulse _ _ _ _); [|discriminate H]. injection H as <-. rewrite pulses_app, variables_app, pulses_declare, variables_declare. split; [reflexivity|cbn; now rewrite !app_nil_r].
    - destruct (match ax with AX => _ | AY => _ | AZ => _ end); [|discriminate H]. injection H as <-. rewrite pulses_app, variables_app, pulses_declare, variables_declare. split; [reflexivity|cbn; now rewrite !app_nil_r].
    - exfalso. cbn [leaves] in LV. assert (L : forall x, In x (flat_map leaves l) -> exists b', In b' l /\ In x (leaves b')) by (intros x X; apply in_flat_map in X; destruct X as (y & Y1 & Y2); eauto).
      destruct (L (PComposite an l)) as (b' & I1 & I2); [rewrite LV; left; reflexivity|]. assert (N : forall c x, In x (leaves c) -> forall an l, x <> PComposite an l).
      { clear. induction c as [t s|a w p d s|t s|ax a q|an l IH|qs] using pblock_ind'; intros x X; try (destruct X as [<-|[]]; discriminate). cbn [leaves] in X. apply in_flat_map in X. destruct X as (y & Y1 & Y2). rewrite Forall_forall in IH. exact (IH y Y1 x Y2). }
      exact (N b' _ I2 _ _ eq_refl).
  Qed.
  Lemma leaves_leaf b : Forall (fun x => leaves x = [x]) (leaves b).
  Proof.
    induction b as [t s|a w p d s|t s|ax a q|an l IH|qs] using pblock_ind'; try (constructor; [reflexivity|constructor]). cbn [leaves]. induction IH as [|b l Hb _ IHl]; [constructor|]. cbn [flat_map]. apply Forall_app. split; assumption.
  Qed.
  Theorem C67_pulses : forall b evs, run b = Some evs ->
    map (fun x => (snd (fst x), snd x)) (pulses evs) = map (fun leaf => (channel_of leaf, WaitForAll)) (filter played (leaves b)) /\ variables evs = flat_map expressions (leaves b).
  Proof.
    intros b evs H. destruct (C67_order b evs H) as (parts & F & ->). pose proof (leaves_leaf b) as LL. clear H. induction F as [|leaf e ls ps Hx F IH]; [split; reflexivity|]. inversion LL as [|? ? L1 L2]; subst. destruct (leaf_pulses leaf e L1 Hx) as [P V]. destruct (IH L2) as [IP IV].
    cbn [concat filter flat_map]. rewrite pulses_app, variables_app, map_app, P, V, IP, IV. split; [|reflexivity]. destruct (played leaf); reflexivity.
  Qed.
  (** * The pulses of the leaves *)
  Theorem C67_digital_xy : positive lc -> positive_settings cf -> forall ax a q, ax <> AZ -> let top := or_else (amplitude_local cf) (max_amp lc) in
    exists p T v, run (PDigital ax a q) = Some (declare a ++ [Target [q] LOCAL_CHANNEL; Add p LOCAL_CHANNEL WaitForAll]) /\
      amplitude p = [(T, (v, v))] /\ 0 <= v <= top /\ detuning p = [(T, (0, 0))] /\ phase p = (match ax with AX => 0 | _ => PI / 2 end) /\
      min_duration lc <= T /\ (on_clock (clock_period lc) (min_duration lc) -> on_clock (clock_period lc) T) /\
      Rabs (val a) - clock_period lc * top / 2 / 1000 <= wf_area (amplitude p) < Rabs (val a) + top / 10 * T / 1000.
  Proof.
    intros (L1 & L2 & L3 & L4) (S1 & S2 & S3) ax a q NZ top. assert (AL : 0 < top) by (unfold top; destruct (amplitude_local cf) as [x|]; cbn; [now apply S1|exact L3]).
    destruct (C46_from_area (Rabs (val a)) top (clock_period lc) (min_duration lc) (Rabs_pos _) AL L1 L2 fuel) as (T & v & F & V & M & K & _ & D).
    exists (Pulse (square (T, v)) (constant T 0) (match ax with AX => 0 | _ => PI / 2 end)), T, v. cbn [add_pulses has_support is_analog negb andb].
    split; [unfold digital_xy_rot_pulse; fold top; rewrite F; destruct ax; [reflexivity|reflexivity|congruence]|]. cbn [amplitude detuning phase]. rewrite area_square. repeat split; try reflexivity; try apply V; try exact M; try exact K; apply D.
  Qed.
  Theorem C67_digital_z : positive lc -> positive_settings cf -> forall a q, let top := or_else (config_detuning cf) (max_abs_detuning lc) in 1 / 10 ^ 10 <= top ->
    exists p T, run (PDigital AZ a q) = Some (declare a ++ [Target [q] LOCAL_CHANNEL; Add p LOCAL_CHANNEL WaitForAll]) /\
      amplitude p = [(T, (0, 0))] /\ detuning p = [(T, (top, top))] /\ min_duration lc <= T /\ (on_clock (clock_period lc) (min_duration lc) -> on_clock (clock_period lc) T) /\
      (T = min_duration lc \/ Rabs (wf_area (detuning p) - Rabs (val a)) <= clock_period lc * top / 2 / 1000).
  Proof.
    intros (L1 & L2 & L3 & L4) _ a q top HT. assert (TP : 0 < top) by (assert (0 < 1 / 10 ^ 10) by lra; lra).
    destruct (C46_from_duration (1000 * Rabs (val a) / top) 0 (clock_period lc) (min_duration lc) (or_introl eq_refl) L1) as (Z0 & _).
    destruct (C46_from_duration (1000 * Rabs (val a) / top) top (clock_period lc) (min_duration lc) (or_intror HT) L1) as (Z1 & M & K & D).
    set (w := from_duration (1000 * Rabs (val a) / top) top (clock_period lc) (min_duration lc)) in *.
    exists (Pulse (square (from_duration (1000 * Rabs (val a) / top) 0 (clock_period lc) (min_duration lc))) (square w) (Rabs (PI / 2))), (fst w).
    split; [cbn [add_pulses has_support is_analog negb andb]; unfold digital_z_rot_pulse; fold top; destruct (Req_EM_T top 0) as [E|_]; [lra|reflexivity]|]. cbn [amplitude detuning].
    unfold square. rewrite Z0, Z1, (fst_from_duration _ 0 top). fold w. split; [reflexivity|]. split; [reflexivity|]. split; [exact M|]. split; [exact K|]. destruct D as [D|D]; [left; exact D|right].
    change [(fst w, (top, top))] with (constant (fst w) top). rewrite area_constant. replace (fst w * top / 1000 - Rabs (val a)) with ((fst w - 1000 * Rabs (val a) / top) * (top / 1000)) by (field; lra). rewrite Rabs_mult, (Rabs_pos_eq (top / 1000)) by lra.
    replace (clock_period lc * top / 2 / 1000) with (clock_period lc / 2 * (top / 1000)) by field. apply Rmult_le_compat_r; [lra|exact D].
  Qed.
  (** A rotation plays its own amplitude and detuning, for its own duration up to the clock. *)
  Theorem C67_rotation : nn = true -> forall a w ph d s, let ch := match s with Global => gc | Local _ => lc end in
    positive ch -> cf = no_settings -> nonempty s -> (val w = 0 \/ 1 / 10 ^ 10 <= val w) -> (val d = 0 \/ 1 / 10 ^ 10 <= val d) -> ~ (val w = 0 /\ val d = 0) ->
    exists p T, run (PRotation a w ph d s) = Some ((declare a ++ declare w ++ declare ph ++ declare d) ++
        match s with Global => [Add p GLOBAL_CHANNEL WaitForAll] | Local qs => [Target qs LOCAL_CHANNEL; Add p LOCAL_CHANNEL WaitForAll] end) /\
      amplitude p = [(T, (val w, val w))] /\ detuning p = [(T, (val d, val d))] /\ phase p = Rabs (val ph) /\ min_duration ch <= T /\ (on_clock (clock_period ch) (min_duration ch) -> on_clock (clock_period ch) T) /\
      (T = min_duration ch \/ Rabs (T - 1000 * Rabs (val a) / sqrt (val w ^ 2 + val d ^ 2)) <= clock_period ch / 2).
  Proof.
    intros -> a w ph d s ch (L1 & L2 & _) CF NE W D NZ. set (N := sqrt (val w ^ 2 + val d ^ 2)) in *.
    destruct (C46_from_duration (1000 * Rabs (val a) / N) (val w) (clock_period ch) (min_duration ch) W L1) as (Z1 & M & K & B).
    destruct (C46_from_duration (1000 * Rabs (val a) / N) (val d) (clock_period ch) (min_duration ch) D L1) as (Z2 & _).
    set (x := from_duration (1000 * Rabs (val a) / N) (val w) (clock_period ch) (min_duration ch)) in *.
    exists (Pulse (square x) (square (from_duration (1000 * Rabs (val a) / N) (val d) (clock_period ch) (min_duration ch))) (Rabs (val ph))), (fst x).
    assert (E : analog_rot_pulse (val a) (val w) (val ph) (val d) ch cf = Some (Pulse (square x) (square (from_duration (1000 * Rabs (val a) / N) (val d) (clock_period ch) (min_duration ch))) (Rabs (val ph)))).
    { rewrite CF. unfold analog_rot_pulse, no_settings. cbn [amplitude_global amplitude_local config_detuning or_else]. fold N. destruct (Req_EM_T N 0) as [Z|_]; [exfalso; apply NZ, norm_zero, Z|]. destruct (is_global ch); reflexivity. }
    split; [|cbn [amplitude detuning phase]; unfold square; rewrite Z1, Z2, (fst_from_duration _ (val d) (val w)); fold x; repeat split; assumption].
    apply support_nonempty in NE. cbn [add_pulses has_support is_analog]. rewrite NE. cbn [negb andb]. destruct s; subst ch; cbn match in *; rewrite E; reflexivity.
  Qed.
  (** With configured settings it plays the configured amplitude of its channel and the configured detuning instead, for the duration of its own. *)
  Theorem C67_rotation_configured : nn = true -> forall a w ph d s, let ch := match s with Global => gc | Local _ => lc end in
    let amp := or_else (if is_global ch then amplitude_global cf else amplitude_local cf) (val w) in let det := or_else (config_detuning cf) (val d) in
    positive ch -> nonempty s -> (amp = 0 \/ 1 / 10 ^ 10 <= amp) -> (det = 0 \/ 1 / 10 ^ 10 <= det) -> ~ (val w = 0 /\ val d = 0) ->
    exists p T, run (PRotation a w ph d s) = Some ((declare a ++ declare w ++ declare ph ++ declare d) ++
        match s with Global => [Add p GLOBAL_CHANNEL WaitForAll] | Local qs => [Target qs LOCAL_CHANNEL; Add p LOCAL_CHANNEL WaitForAll] end) /\
      amplitude p = [(T, (amp, amp))] /\ detuning p = [(T, (det, det))] /\ phase p = Rabs (val ph) /\ min_duration ch <= T /\ (on_clock (clock_period ch) (min_duration ch) -> on_clock (clock_period ch) T) /\
      (T = min_duration ch \/ Rabs (T - 1000 * Rabs (val a) / sqrt (val w ^ 2 + val d ^ 2)) <= clock_period ch / 2).
  Proof.
    intros -> a w ph d s ch amp det (L1 & L2 & _) NE W D NZ. set (N := sqrt (val w ^ 2 + val d ^ 2)) in *.
    destruct (C46_from_duration (1000 * Rabs (val a) / N) amp (clock_period ch) (min_duration ch) W L1) as (Z1 & M & K & B).
    destruct (C46_from_duration (1000 * Rabs (val a) / N) det (clock_period ch) (min_duration ch) D L1) as (Z2 & _).
    set (x := from_duration (1000 * Rabs (val a) / N) amp (clock_period ch) (min_duration ch)) in *.
    exists (Pulse (square x) (square (from_duration (1000 * Rabs (val a) / N) det (clock_period ch) (min_duration ch))) (Rabs (val ph))), (fst x).
    assert (E : analog_rot_pulse (val a) (val w) (val ph) (val d) ch cf = Some (Pulse (square x) (square (from_duration (1000 * Rabs (val a) / N) det (clock_period ch) (min_duration ch))) (Rabs (val ph)))).
    { unfold analog_rot_pulse. fold N. destruct (Req_EM_T N 0) as [Z|_]; [exfalso; apply NZ, norm_zero, Z|]. reflexivity. }
    split; [|cbn [amplitude detuning phase]; unfold square; rewrite Z1, Z2, (fst_from_duration _ det amp); fold x; repeat split; assumption].
    apply support_nonempty in NE. cbn [add_pulses has_support is_analog]. rewrite NE. cbn [negb andb]. destruct s; subst ch; cbn match in *; rewrite E; reflexivity.
  Qed.
  Theorem C67_interaction : nn = true -> forall t, exists p, run (PInteraction t Global) = Some (declare t ++ [Add p GLOBAL_CHANNEL WaitForAll]) /\
    amplitude p = [(val t, (0, 0))] /\ detuning p = [(val t, (0, 0))].
  Proof. intros -> t. eexists. split; [reflexivity|split; reflexivity]. Qed.
  Theorem C67_entanglement : nn = true -> positive gc -> positive_settings cf -> forall t s, nonempty s -> let top := or_else (amplitude_global cf) (max_amp gc) in
    exists p T delay, run (PEntanglement t s) = Some (declare t ++ [Add p GLOBAL_CHANNEL WaitForAll]) /\
      wf_length (amplitude p) = T + delay /\ wf_length (detuning p) = T + delay /\ val t <= delay < val t + clock_period gc /\ on_clock (clock_period gc) delay /\
      PI / 2 - clock_period gc * top / 2 / 1000 <= wf_area (amplitude p) < PI / 2 + top / 10 * T / 1000 /\ wf_area (detuning p) = T * PI / 2 / 1000 /\ phase p = PI / 2.
  Proof.
    intros -> (G1 & G2 & G3 & G4) (S1 & S2 & S3) t s NE top. assert (AG : 0 < top) by (unfold top; destruct (amplitude_global cf) as [x|]; cbn; [now apply S2|exact G3]).
    destruct (C46_from_area (PI / 2) top (clock_period gc) (min_duration gc) (Rlt_le _ _ PI2_RGT_0) AG G1 G2 fuel) as (T & v & F & V & M & K & _ & D).
    set (delay := clock_period gc * np_ceil (val t / clock_period gc)). exists (Pulse (square (T, v) ++ constant delay 0) ((T, (0, PI)) :: constant delay 0) (PI / 2)), T, delay.
    apply support_nonempty in NE. cbn [add_pulses has_support is_analog]. rewrite NE. cbn [negb andb]. split; [unfold entangle_pulse; fold top; rewrite F; reflexivity|]. cbn [amplitude detuning phase].
    rewrite length_app_wf, area_app, length_square, length_constant, area_square, area_constant. cbn [fst]. split; [reflexivity|]. split; [unfold wf_length; cbn; ring|].
    destruct (ceil_spec (val t / clock_period gc)) as [C1 C2]. split; [unfold delay|split; [destruct (ceil_int (val t / clock_period gc)) as [k Ek]; exists k; unfold delay; now rewrite Ek|]].
    { assert (X : val t = clock_period gc * (val t / clock_period gc)) by (field; lra). split; [rewrite X at 1; apply Rmult_le_compat_l; lra|]. apply (Rlt_le_trans _ (clock_period gc * (val t / clock_period gc + 1))); [apply Rmult_lt_compat_l; lra|]. rewrite Rmult_plus_distr_l, <- X. lra. }
    replace (delivered (T, v) + delay * 0 / 1000) with (delivered (T, v)) by field. split; [exact D|]. split; [|reflexivity]. change (wf_area ((T, (0, PI)) :: constant delay 0)) with (T * (0 + PI) / 2 / 1000 + wf_area (constant delay 0)). rewrite area_constant. field.
  Qed.
End Blocks.

(** AnalogRot plays for the duration it was given. *)
Theorem C67_analog_rot : forall fuel rho lc gc n duration omega delta ph s b, let ch := match s with Global => gc | Local _ => lc end in
  positive ch -> nonempty s -> 0 <= duration -> (omega = 0 \/ 1 / 10 ^ 10 <= omega) -> (delta = 0 \/ 1 / 10 ^ 10 <= delta) -> AnalogRot duration omega delta ph s = Some b ->
  exists p T evs, add_pulses fuel rho lc gc no_settings n true b = Some evs /\ map (fun x => fst (fst x)) (pulses evs) = [p] /\ amplitude p = [(T, (omega, omega))] /\ detuning p = [(T, (delta, delta))] /\ (T = min_duration ch \/ Rabs (T - duration) <= clock_period ch / 2).
Proof.
  intros fuel rho lc gc n du w d ph s b ch PC NE Du W D B. assert (NZ : ~ (w = 0 /\ d = 0)). { intros [-> ->]. unfold AnalogRot in B. destruct (Req_EM_T 0 0); [discriminate B|congruence]. }
  assert (E : b = PRotation (Num (du * sqrt (w ^ 2 + d ^ 2) / 1000)) (Num w) (Num ph) (Num d) s) by (unfold AnalogRot in B; destruct (Req_EM_T w 0); [destruct (Req_EM_T d 0); [discriminate B|]|]; injection B as <-; reflexivity).
  destruct (C67_rotation fuel rho lc gc no_settings n true eq_refl (Num (du * sqrt (w ^ 2 + d ^ 2) / 1000)) (Num w) (Num ph) (Num d) s PC eq_refl NE W D NZ) as (p & T & R & A1 & A2 & _ & _ & _ & L). cbn [value] in *.
  assert (NP : sqrt (w ^ 2 + d ^ 2) <> 0) by (intros Z; apply NZ, norm_zero, Z). pose proof (sqrt_pos (w ^ 2 + d ^ 2)) as SP.
  exists p, T. eexists. split; [rewrite E; exact R|]. split; [destruct s; reflexivity|]. split; [exact A1|]. split; [exact A2|]. fold ch in L. destruct L as [L|L]; [left; exact L|right].
  rewrite (Rabs_pos_eq (du * sqrt (w ^ 2 + d ^ 2) / 1000)) in L by (apply Rdiv_le_0_compat; [apply Rmult_le_pos; lra|lra]). replace (1000 * (du * sqrt (w ^ 2 + d ^ 2) / 1000) / sqrt (w ^ 2 + d ^ 2)) with du in L by (field; exact NP). exact L.
Qed.
Example C67_analog_rot_instance : exists b p T evs, AnalogRot 500 3 4 0 Global = Some b /\ add_pulses 0 (fun _ => 0) (Channel false 4 16 10 10) (Channel true 4 16 5 10) no_settings 2 true b = Some evs /\ map (fun x => fst (fst x)) (pulses evs) = [p] /\ amplitude p = [(T, (3, 3))] /\ detuning p = [(T, (4, 4))].
Proof.
  assert (B : exists b, AnalogRot 500 3 4 0 Global = Some b) by (unfold AnalogRot; destruct (Req_EM_T 3 0); [lra|eauto]). destruct B as [b B]. exists b.
  destruct (C67_analog_rot 0 (fun _ => 0) (Channel false 4 16 10 10) (Channel true 4 16 5 10) 2 500 3 4 0 Global b) as (p & T & evs & R & P & A & D & _); [unfold positive; cbn; lra|exact I|lra|right; lra|right; lra|exact B|]. exists p, T, evs. split; [exact B|]. split; [exact R|]. split; [exact P|]. split; assumption.
Qed.

(** AnalogRX and AnalogRY play the amplitude PI without detuning, with phases 0 and PI / 2; AnalogRZ plays the detuning PI without amplitude;
    each for 1000 |angle| / PI nanoseconds, up to the clock and the shortest duration of the channel. *)
Theorem C67_axes : forall fuel rho lc gc n angle s, let ch := match s with Global => gc | Local _ => lc end in positive ch -> nonempty s ->
  forall b w d ph, (b = AnalogRX angle s /\ w = PI /\ d = 0 /\ ph = 0) \/ (b = AnalogRY angle s /\ w = PI /\ d = 0 /\ ph = PI / 2) \/ (b = AnalogRZ angle s /\ w = 0 /\ d = PI /\ ph = 0) ->
  exists p T evs, add_pulses fuel rho lc gc no_settings n true b = Some evs /\ map (fun x => fst (fst x)) (pulses evs) = [p] /\
    amplitude p = [(T, (w, w))] /\ detuning p = [(T, (d, d))] /\ phase p = ph /\ min_duration ch <= T /\ (T = min_duration ch \/ Rabs (T - 1000 * Rabs angle / PI) <= clock_period ch / 2).
Proof.
  intros fuel rho lc gc n angle s ch PC NE b w d ph H. pose proof PI_RGT_0 as P0. pose proof PI2_1 as P1.
  assert (P2 : 1 / 10 ^ 10 <= PI) by (apply Rle_trans with 1; [|lra]; apply Rmult_le_reg_r with (10 ^ 10); [|unfold Rdiv; rewrite Rmult_assoc, Rinv_l]; lra).
  assert (G : forall w' ph' d', (w' = 0 \/ w' = PI) -> (d' = 0 \/ d' = PI) -> w' <> d' -> exists p T evs, add_pulses fuel rho lc gc no_settings n true (PRotation (Num angle) (Num w') (Num ph') (Num d') s) = Some evs /\ map (fun x => fst (fst x)) (pulses evs) = [p] /\
    amplitude p = [(T, (w', w'))] /\ detuning p = [(T, (d', d'))] /\ phase p = Rabs ph' /\ min_duration ch <= T /\ (T = min_duration ch \/ Rabs (T - 1000 * Rabs angle / PI) <= clock_period ch / 2)).
  { intros w' ph' d' W D N. assert (NZ : ~ (w' = 0 /\ d' = 0)) by (intros [-> ->]; congruence).
    assert (S : sqrt (w' ^ 2 + d' ^ 2) = PI). { rewrite <- (sqrt_pow2 PI) at 1 by lra. f_equal. destruct W as [->| ->], D as [->| ->]; try congruence; ring. }
    destruct (C67_rotation fuel rho lc gc no_settings n true eq_refl (Num angle) (Num w') (Num ph') (Num d') s PC eq_refl NE) as (p & T & R & A1 & A2 & A3 & A4 & _ & L); cbn [value]; [destruct W; [left|right; subst]; assumption|destruct D; [left|right; subst]; assumption|exact NZ|].
    cbn [value] in *. rewrite S in L. exists p, T. eexists. split; [exact R|]. split; [destruct s; reflexivity|]. repeat split; assumption. }
  assert (A0 : ph = Rabs (match b with PRotation _ _ (Num x) _ _ => x | _ => ph end)).
  { destruct H as [(-> & _ & _ & ->)|[(-> & _ & _ & ->)|(-> & _ & _ & ->)]]; cbn; [rewrite Rabs_R0; reflexivity| |rewrite Rabs_R0; reflexivity]. replace (- PI / 2) with (- (PI / 2)) by lra. rewrite Rabs_Ropp, Rabs_pos_eq; lra. }
  rewrite A0. clear A0. destruct H as [(-> & -> & -> & _)|[(-> & -> & -> & _)|(-> & -> & -> & _)]]; unfold AnalogRX, AnalogRY, AnalogRZ; cbn match; apply G; auto; lra.
Qed.
Example C67_axes_instance : exists p T evs, add_pulses 0 (fun _ => 0) (Channel false 4 16 10 10) (Channel true 4 16 5 10) no_settings 2 true (AnalogRY 1 (Local [1%nat])) = Some evs /\ map (fun x => fst (fst x)) (pulses evs) = [p] /\ amplitude p = [(T, (PI, PI))] /\ phase p = PI / 2.
Proof.
  pose proof (C67_axes 0 (fun _ => 0) (Channel false 4 16 10 10) (Channel true 4 16 5 10) 2 1 (Local [1%nat])) as H. cbn match zeta in H.
  specialize (H ltac:(unfold positive; cbn; lra) ltac:(discriminate) (AnalogRY 1 (Local [1%nat])) PI 0 (PI / 2) ltac:(right; left; repeat split)). destruct H as (p & T & evs & A & B & C & _ & D & _). exists p, T, evs. auto.
Qed.

(** * Addressing patterns *)
(** Every qubit has its own channel, with one pulse of the whole duration whose values are those of the pattern; weights that are not numbers are refused. *)
Theorem C67_pattern : forall T n pt evs, add_addressing_pattern T n pt = Some evs ->
  (forall i, (i < n)%nat -> exists wa la wd ld, nth_error (weights_amp pt) i = Some (Some wa, la) /\ nth_error (weights_det pt) i = Some (Some wd, ld)) /\
  filter (fun e => match e with Declare _ _ => true | _ => false end) evs = map (fun i => Declare (QUBIT_CHANNEL i) false) (seq 0 n) /\
  length (pulses evs) = n /\
  forall i wa la wd ld, (i < n)%nat -> nth_error (weights_amp pt) i = Some (Some wa, la) -> nth_error (weights_det pt) i = Some (Some wd, ld) ->
    nth_error (pulses evs) i = Some (Pulse (constant T (global_constr_amp pt * p_amp pt * (wa * la))) (constant T (global_constr_det pt * p_det pt * (wd * ld))) 0, QUBIT_CHANNEL i, NoDelay).
Proof.
  intros T n pt evs H. unfold add_addressing_pattern in H. set (f := fun i : nat => obind (qubit_weight (weights_amp pt) i) _) in H.
  destruct (osequence (map f (seq 0 n))) as [es|] eqn:O; [|discriminate H]. injection H as <-. apply osequence_inv in O.
  assert (F : forall i, (i < n)%nat -> exists wa la wd ld, nth_error (weights_amp pt) i = Some (Some wa, la) /\ nth_error (weights_det pt) i = Some (Some wd, ld) /\
     nth_error es i = Some [Target [i] (QUBIT_CHANNEL i); Add (Pulse (constant T (global_constr_amp pt * p_amp pt * (wa * la))) (constant T (global_constr_det pt * p_det pt * (wd * ld))) 0) (QUBIT_CHANNEL i) NoDelay]).
  { intros i I. assert (N : nth_error (map f (seq 0 n)) i = Some (f i)). { apply map_nth_error. rewrite (nth_error_nth' _ 0%nat) by (rewrite seq_length; exact I). rewrite seq_nth by exact I. reflexivity. }
    rewrite O in N. destruct (nth_error es i) as [e|] eqn:E; [|apply nth_error_None in E; assert (nth_error (map Some es) i = None) by (apply nth_error_None; rewrite map_length; exact E); congruence].
    rewrite (map_nth_error Some i es E) in N. injection N as N. unfold f in N. unfold qubit_weight in N. destruct (nth_error (weights_amp pt) i) as [[[wa|] la]|]; try discriminate N. destruct (nth_error (weights_det pt) i) as [[[wd|] ld]|]; try discriminate N. cbn in N. injection N as ->. exists wa, la, wd, ld. repeat split. }
  assert (LE : length es = n) by (apply (f_equal (@length _)) in O; rewrite !map_length, seq_length in O; congruence).
  split; [intros i I; destruct (F i I) as (wa & la & wd & ld & A & B & _); eauto 8|].
  assert (SH : Forall (fun e => exists x, e = [Target [snd x] (QUBIT_CHANNEL (snd x)); Add (fst x) (QUBIT_CHANNEL (snd x)) NoDelay]) es).
  { apply Forall_forall. intros e IE. apply In_nth_error in IE. destruct IE as [i IE]. assert (I : (i < n)%nat) by (rewrite <- LE; apply nth_error_Some; congruence). destruct (F i I) as (wa & la & wd & ld & _ & _ & Q). rewrite IE in Q. injection Q as ->. eexists (_, i). reflexivity. }
  assert (PD : pulses (map (fun i => Declare (QUBIT_CHANNEL i) false) (seq 0 n)) = []) by (clear; induction (seq 0 n) as [|k l IH]; [reflexivity|exact IH]).
  split; [|split].
  - rewrite filter_app. replace (filter _ (concat es)) with (@nil event); [rewrite app_nil_r; clear; induction (seq 0 n) as [|k l IH]; [reflexivity|cbn; now rewrite IH]|]. clear - SH. induction SH as [|e es [x ->] _ IH]; [reflexivity|]. cbn. exact IH.
  - rewrite pulses_app, PD. cbn [app]. rewrite <- LE. clear - SH. induction SH as [|e es [x ->] _ IH]; [reflexivity|]. cbn [concat]. rewrite pulses_app, app_length, IH. reflexivity.
  - intros i wa la wd ld I A B. destruct (F i I) as (wa' & la' & wd' & ld' & A' & B' & E). rewrite A in A'. rewrite B in B'. injection A' as <- <-. injection B' as <- <-.
    rewrite pulses_app, PD. cbn [app]. clear - SH E. revert i E. match goal with |- context [Some (?p, _, NoDelay)] => generalize p end. intros p i E.
    assert (G : forall i, nth_error (pulses (concat es)) i = match nth_error es i with Some [_; Add q c pr] => Some (q, c, pr) | _ => None end).
    { clear E. induction SH as [|e es [x ->] _ IH]; intros [|k]; try reflexivity. cbn [concat]. rewrite pulses_app. cbn [pulses flat_map app nth_error]. apply IH. }
    rewrite G, E. reflexivity.
Qed.
Example C67_pattern_instance : exists evs, add_addressing_pattern 300 2 (Pattern 2 (-3) [(Some (1 / 2), 1); (Some 0, 1)] [(Some 1, 1); (Some (1 / 4), 1)] 1 1) = Some evs /\ length (pulses evs) = 2%nat.
Proof. eexists. split; reflexivity. Qed.

(** * Devices *)
Theorem C67_sequence : forall fuel rho t det amp nn n cf b evs, make_sequence fuel rho t det amp nn n cf b = Some evs ->
  t <> OtherDevice /\ exists gc lc rest, evs = Declare GLOBAL_CHANNEL true :: Declare LOCAL_CHANNEL false :: rest /\ add_pulses fuel rho lc gc cf n nn b = Some rest /\
    is_global gc = true /\ is_global lc = false /\ max_abs_detuning gc = det /\ max_abs_detuning lc = det /\ max_amp lc = amp /\ max_amp gc <= Rmax amp (amp / 2) /\
    on_clock (clock_period gc) (min_duration gc) /\ on_clock (clock_period lc) (min_duration lc) /\ (0 < det -> 0 < amp -> positive gc /\ positive lc).
Proof.
  intros fuel rho t det amp nn n cf b evs H. unfold make_sequence in H. destruct t; cbn [device_channels obind] in H; [| |discriminate H];
  (match type of H with option_map _ ?x = _ => destruct x as [rest|] eqn:A; [|discriminate H] end); injection H as <-; (split; [discriminate|]); do 3 eexists; (split; [reflexivity|]); (split; [exact A|]); cbn;
  unfold positive, on_clock; repeat split; intros; cbn; try reflexivity; try lra; try (apply Rmax_l); try (eapply Rle_trans; [|apply Rmax_r]; lra); try (exists 1%Z; lra); try (exists 4%Z; lra).
Qed.
Example C67_sequence_instance : exists evs, make_sequence 0 (fun _ => PI) Realistic 10 10 true 2 no_settings (PComposite false [PDigital AX (Sym "x") 0; PInteraction (Num 300) Global; AnalogRY PI (Local [1%nat])]) = Some evs /\
  map (fun x => snd (fst x)) (pulses evs) = [LOCAL_CHANNEL; GLOBAL_CHANNEL; LOCAL_CHANNEL] /\ variables evs = ["x"%string].
Proof.
  unfold make_sequence. cbn [device_channels obind]. set (gc := Channel true 4 16 (10 * (1 / 2)) 10). set (lc := Channel false 4 16 10 10). set (b := PComposite false _).
  assert (S : exists evs, add_pulses 0 (fun _ => PI) lc gc no_settings 2 true b = Some evs).
  { apply C67_accepts; [unfold positive, lc; cbn; lra|unfold positive, gc; cbn; lra|unfold positive_settings; cbn; repeat split; intros; discriminate|]. cbn. repeat split; try discriminate; try lra. intros [H _]. pose proof PI_RGT_0. lra. }
  destruct S as [evs S]. exists (Declare GLOBAL_CHANNEL true :: Declare LOCAL_CHANNEL false :: evs). rewrite S. split; [reflexivity|]. destruct (C67_pulses _ _ _ _ _ _ _ _ _ S) as [P V]. split; [|exact V].
  change (pulses (Declare GLOBAL_CHANNEL true :: Declare LOCAL_CHANNEL false :: evs)) with (pulses evs). apply (f_equal (map fst)) in P. rewrite map_map in P. cbn [fst] in P. etransitivity; [exact P|reflexivity].
Qed.

(** * Findings *)
Lemma norm_PI : sqrt (PI ^ 2 + 0 ^ 2) = PI.
Proof. pose proof PI_RGT_0. replace (PI ^ 2 + 0 ^ 2) with (Rsqr PI) by (unfold Rsqr; ring). apply sqrt_Rsqr. lra. Qed.
Lemma rx_distinct a z : sin (a / 2) <> 0 -> cos (a / 2) <> 0 -> scaled z (rx_matrix a) <> rx_matrix (- a).
Proof.
  intros S K E. unfold scaled, rx_matrix in E. cbn [fst snd] in E. replace (- a / 2) with (- (a / 2)) in E by field. rewrite cos_neg, sin_neg in E. injection E as E1 E2 E3 E4 _ _ _ _.
  destruct z as [x y]. cbn in *. assert (X : x = 1) by (apply (Rmult_eq_reg_r (cos (a / 2))); [lra|exact K]). rewrite X in E4. assert (sin (a / 2) = 0) by lra. contradiction.
Qed.
(** Finding: the sign of an angle is lost.  A rotation by an angle and one by its opposite play the same pulses, for RX, RY, RZ and the analog rotations (pulses.py:216,
    270, 291); the pulse for RX(-pi/2) is exactly the one that makes RX(pi/2), which is not RX(-pi/2) up to a phase. *)
Theorem C67_sign_refuted :
  (forall fuel rho lc gc cf n nn, (forall ax x q, add_pulses fuel rho lc gc cf n nn (PDigital ax (Num (- x)) q) = add_pulses fuel rho lc gc cf n nn (PDigital ax (Num x) q)) /\
     (forall x s, add_pulses fuel rho lc gc cf n nn (AnalogRX (- x) s) = add_pulses fuel rho lc gc cf n nn (AnalogRX x s)) /\
     (forall x s, add_pulses fuel rho lc gc cf n nn (AnalogRY (- x) s) = add_pulses fuel rho lc gc cf n nn (AnalogRY x s)) /\
     (forall x s, add_pulses fuel rho lc gc cf n nn (AnalogRZ (- x) s) = add_pulses fuel rho lc gc cf n nn (AnalogRZ x s))) /\
  exists theta p, make_sequence 0 (fun _ => 0) Idealized 1 (PI / 2) true 1 no_settings (PDigital AX (Num theta) 0) =
      Some [Declare GLOBAL_CHANNEL true; Declare LOCAL_CHANNEL false; Target [0%nat] LOCAL_CHANNEL; Add p LOCAL_CHANNEL WaitForAll] /\
    wf_area (detuning p) = 0 /\ phase p = 0 /\ forall z, scaled z (rx_matrix (wf_area (amplitude p))) <> rx_matrix theta.
Proof.
  split; [intros; repeat split; intros; cbn [add_pulses AnalogRX AnalogRY AnalogRZ has_support is_analog value]; unfold digital_xy_rot_pulse, digital_z_rot_pulse, analog_rot_pulse; rewrite Rabs_Ropp; reflexivity|].
  pose proof PI_RGT_0 as PP. exists (- (PI / 2)). assert (FA : from_area 1 (PI / 2) (PI / 2) 1 1 = Some (1000, PI / 2)).
  { assert (E : first_duration (PI / 2) (PI / 2) 1 1 = 1000). { unfold first_duration. replace (PI / 2 / (1 * (PI / 2)) * 1000) with 1000 by (field; lra). rewrite (rint_near _ 1000); [|rewrite Rminus_eq_0, Rabs_R0; lra]. rewrite Rmax_left; lra. }
    rewrite from_area_eq by lra. rewrite E. unfold ceil_amplitude, MAX_AMPLITUDE_SCALING. replace (PI / 2 / (1 / 10 * (PI / 2) * 1000) * 1000) with 10 by (field; lra).
    assert (CE : np_ceil 10 = 10). { apply Rle_antisym; [apply (ceil_le 10 10); lra|apply ceil_spec]. } rewrite CE. f_equal. f_equal. rewrite Rmin_left; lra. }
  eexists. split; [unfold make_sequence; cbn [device_channels obind add_pulses has_support is_analog negb andb value declare app]; unfold digital_xy_rot_pulse; cbn [amplitude_local no_settings or_else max_amp clock_period min_duration]; rewrite Rabs_Ropp, (Rabs_pos_eq (PI / 2)) by lra; rewrite FA; reflexivity|].
  cbn [amplitude detuning phase fst]. rewrite area_constant, area_square. split; [field|]. split; [reflexivity|]. intros z. unfold delivered. cbn [fst snd]. replace (1000 * (PI / 2) / 1000) with (PI / 2) by field.
  apply rx_distinct; replace (PI / 2 / 2) with (PI / 4) by field; [rewrite sin_PI4|rewrite cos_PI4]; pose proof Rlt_sqrt2_0; intros H0; assert (0 < 1 / sqrt 2) by (apply Rdiv_lt_0_compat; lra); lra.
Qed.
(** Finding: the sign of a phase is lost, although opposite phases make different Hamiltonians (pulses.py:232): AnalogRot with phase pi/2 and with phase -pi/2 play the same pulse. *)
Theorem C67_phase_refuted : forall fuel rho lc gc cf n nn duration omega delta ph s b b', AnalogRot duration omega delta ph s = Some b -> AnalogRot duration omega delta (- ph) s = Some b' ->
  add_pulses fuel rho lc gc cf n nn b = add_pulses fuel rho lc gc cf n nn b' /\
  (0 < omega -> sin ph <> 0 -> (omega / 2 * cos ph, - (omega / 2) * sin ph) <> (omega / 2 * cos (- ph), - (omega / 2) * sin (- ph))).
Proof.
  intros fuel rho lc gc cf n nn du w d ph s b b' B B'. split.
  - unfold AnalogRot in *. destruct (Req_EM_T w 0); [destruct (Req_EM_T d 0); [discriminate B|]|]; injection B as <-; injection B' as <-; cbn [add_pulses has_support is_analog value]; unfold analog_rot_pulse; rewrite Rabs_Ropp; reflexivity.
  - intros W S H. injection H as _ H. rewrite sin_neg in H. apply S. assert (w * sin ph = 0) by lra. nra.
Qed.
(** Finding: a configured amplitude replaces the amplitude of an analog rotation but not its duration (pulses.py:203-216), so the angle is scaled by their quotient. *)
Theorem C67_configured_refuted : exists amp p, make_sequence 0 (fun _ => 0) Idealized 100 100 true 1 (Configuration None (Some amp) None) (AnalogRX PI Global) =
    Some [Declare GLOBAL_CHANNEL true; Declare LOCAL_CHANNEL false; Add p GLOBAL_CHANNEL WaitForAll] /\ wf_area (amplitude p) = 2 * PI.
Proof.
  pose proof PI_RGT_0 as PP. pose proof PI2_1 as P1. exists (2 * PI). eexists. unfold make_sequence, AnalogRX. cbn [device_channels obind add_pulses has_support is_analog negb andb value declare app]. unfold analog_rot_pulse. cbn [is_global amplitude_global config_detuning or_else clock_period min_duration].
  rewrite norm_PI. destruct (Req_EM_T PI 0) as [E|_]; [exfalso; clear - PP E; lra|]. split; [reflexivity|]. cbn [amplitude]. rewrite area_square.
  replace (1000 * Rabs PI / PI) with 1000 by (rewrite Rabs_pos_eq by lra; field; lra). assert (T10 : 1 / 10 ^ 10 <= 1) by lra. destruct (C46_from_duration 1000 (2 * PI) 1 1) as (A & _); [right; apply (Rle_trans _ 1); [exact T10|lra]|lra|]. unfold delivered. rewrite A.
  assert (F : fst (from_duration 1000 (2 * PI) 1 1) = 1000). { unfold from_duration. cbn [fst]. replace (1000 / 1) with 1000 by field. rewrite (rint_near _ 1000); [|rewrite Rminus_eq_0, Rabs_R0; lra]. rewrite Rmax_left; lra. } rewrite F. field.
Qed.
(** Finding: the interaction on some qubits only plays nothing (pulses.py:132-137), so a circuit made of such blocks takes no time, whatever their duration. *)
Theorem C67_interaction_refuted : forall fuel rho lc gc cf n t l, l <> [] -> Forall (fun qs => qs <> [] /\ Forall (fun q => (q < n)%nat) qs) l ->
  add_pulses fuel rho lc gc cf n true (PComposite true (map (fun qs => PInteraction (Num t) (Local qs)) l)) = Some [].
Proof.
  intros fuel rho lc gc cf n t l NE F. rewrite run_composite.
  assert (A : map (add_pulses fuel rho lc gc cf n true) (map (fun qs => PInteraction (Num t) (Local qs)) l) = map Some (map (fun _ => []) l)).
  { rewrite !map_map. apply map_ext_in. intros qs I. rewrite Forall_forall in F. destruct (F qs I) as [N B]. cbn [add_pulses has_support is_analog]. destruct qs as [|q qs]; [congruence|]. cbn [length Nat.eqb negb andb]. replace (forallb (fun q0 => Nat.ltb q0 n) (q :: qs)) with true; [reflexivity|]. symmetry. apply forallb_forall. intros x X. rewrite Forall_forall in B. apply Nat.ltb_lt, B, X. }
  rewrite A. replace (existsb has_support _) with true; cbn [negb andb].
  - unfold in_order. rewrite osequence_map_Some. cbn [option_map]. f_equal. clear. induction l as [|x l IH]; [reflexivity|exact IH].
  - symmetry. destruct l as [|[|q qs] l]; [congruence| |reflexivity]. inversion F as [|? ? [N _] _]. congruence.
Qed.
(** Finding: rotations put side by side are played one after the other on the local channel: the time taken is the sum of the durations (pulses.py:158-166, 182-184). *)
Theorem C67_parallel_refuted : exists evs, make_sequence 0 (fun _ => 0) Idealized 100 100 true 2 no_settings (PComposite true [AnalogRX PI (Local [0%nat]); AnalogRX PI (Local [1%nat])]) = Some evs /\
  map (fun x => (wf_length (amplitude (fst (fst x))), snd x)) (pulses evs) = [(1000, WaitForAll); (1000, WaitForAll)].
Proof.
  pose proof PI_RGT_0 as PP. eexists. unfold make_sequence, AnalogRX. cbn [device_channels obind]. rewrite run_composite. cbn [existsb has_support length Nat.eqb negb orb andb map add_pulses is_analog value declare app]. unfold analog_rot_pulse. cbn [is_global amplitude_local config_detuning or_else clock_period min_duration no_settings].
  rewrite norm_PI. destruct (Req_EM_T PI 0) as [E|_]; [exfalso; clear - PP E; lra|]. split; [reflexivity|].
  replace (1000 * Rabs PI / PI) with 1000 by (rewrite Rabs_pos_eq by lra; field; lra). cbn -[wf_length square from_duration Rmult Rplus]. rewrite length_square. unfold from_duration. cbn [fst]. replace (1000 / 1) with 1000 by field. rewrite (rint_near _ 1000); [|rewrite Rminus_eq_0, Rabs_R0; lra]. rewrite Rmax_left by lra. replace (1 * 1000) with 1000 by ring. reflexivity.
Qed.
(** Finding: an entanglement on some qubits is played on the global channel (pulses.py:168-173). *)
Theorem C67_entanglement_refuted : forall fuel rho lc gc cf n nn t qs, qs <> [] -> add_pulses fuel rho lc gc cf n nn (PEntanglement t (Local qs)) = add_pulses fuel rho lc gc cf n nn (PEntanglement t Global).
Proof. intros fuel rho lc gc cf n nn t [|q qs] N; [congruence|]. reflexivity. Qed.
(** Finding: a parametrised block used twice declares the same variable twice, which a Pulser sequence refuses. *)
Theorem C67_twice_refuted : forall fuel rho lc gc cf n nn b u evs, In u (flat_map expressions (leaves b)) -> add_pulses fuel rho lc gc cf n nn (PComposite false [b; b]) = Some evs -> ~ NoDup (variables evs).
Proof.
  intros fuel rho lc gc cf n nn b u evs I H N. destruct (C67_pulses _ _ _ _ _ _ _ _ _ H) as [_ V]. rewrite V in N. cbn [leaves flat_map] in N. rewrite app_nil_r, flat_map_app in N.
  apply in_split in I. destruct I as (l1 & l2 & E). rewrite E in N. rewrite <- app_assoc in N. apply NoDup_remove_2 in N. apply N. apply in_or_app. right. apply in_or_app. right. apply in_or_app. right. left. reflexivity.
Qed.
Print Assumptions C67_accepts.
Print Assumptions C67_order.
Print Assumptions C67_pulses.
Print Assumptions C67_digital_xy.
Print Assumptions C67_digital_z.
Example C67_rotation_configured_witness : let cf := Configuration (Some 3) (Some 5) None in let ch := Channel false 4 16 10 20 in
  positive ch /\ nonempty (Local [0%nat]) /\ or_else (if is_global ch then amplitude_global cf else amplitude_local cf) 2 = 3 /\ or_else (config_detuning cf) 1 = 1 /\ (3 = 0 \/ 1 / 10 ^ 10 <= 3) /\ (1 = 0 \/ 1 / 10 ^ 10 <= 1) /\ ~ (2 = 0 /\ 1 = 0).
Proof. cbn. unfold positive, nonempty. cbn. repeat split; try lra; try discriminate; right; lra. Qed.
Print Assumptions C67_rotation.
Print Assumptions C67_rotation_configured.
Print Assumptions C67_analog_rot.
Print Assumptions C67_interaction.
Print Assumptions C67_entanglement.
Print Assumptions C67_pattern.
Print Assumptions C67_sequence.
Print Assumptions C67_sign_refuted.
Print Assumptions C67_axes.
