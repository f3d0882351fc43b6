(** C68: calls of the Pulser backend and what they leave behind. *)
From Coq Require Import String Reals List Arith Bool Lia Lra.
From Coquelicot Require Import Coquelicot.
From Coq Require Import List.
From Verif Require Import M_Tensor M_Transpile M_Basis M_PulserBackend P_Hea P_Pulses.
Import ListNotations.
Open Scope R_scope.

(** * Specification *)
(** The values in row [i] of a batch of size [m]: those of every batched parameter, and the whole of the others. *)
Definition row_of (d : dict) (m i : nat) : dict := map (fun kv => (fst kv, if Nat.eqb (length (snd kv)) m then [nth i (snd kv) 0] else snd kv)) d.
Definition batch (d : dict) : nat := match d with [] => 1 | _ => list_max (map (fun kv => length (snd kv)) d) end.
(** The values for the variables of a sequence. *)
Definition for_variables (vs : list string) (d : dict) : dict := filter (fun kv => existsb (String.eqb (fst kv)) vs) d.
Definition given (vs : list string) (d : dict) : Prop := forall v, In v vs -> exists x, In (v, x) d.

Lemma rows_length d : length (to_rows d) = batch d.
Proof. destruct d as [|kv d]; [reflexivity|]. unfold to_rows, batch. rewrite map_length, seq_length. reflexivity. Qed.
Lemma rows_nth d i : d <> [] -> (i < batch d)%nat -> nth_error (to_rows d) i = Some (row_of d (batch d) i).
Proof. intros N I. destruct d as [|kv d]; [congruence|]. unfold to_rows, batch in *. apply (map_nth_error (row_of (kv :: d) (list_max (map (fun kv => length (snd kv)) (kv :: d)))) i). rewrite (nth_error_nth' _ 0%nat) by (rewrite seq_length; exact I). rewrite seq_nth by exact I. reflexivity. Qed.
Lemma rows_nonempty d : d <> [] -> Forall (fun r => r <> []) (to_rows d).
Proof. intros N. destruct d as [|kv d]; [congruence|]. unfold to_rows. apply Forall_forall. intros r I. apply in_map_iff in I. destruct I as (i & <- & _). discriminate. Qed.
Lemma given_row vs d m i : given vs (row_of d m i) <-> given vs d.
Proof.
  split; intros G v V; destruct (G v V) as [x X].
  - unfold row_of in X. apply in_map_iff in X. destruct X as ([k l] & E & I). injection E as <- _. eauto.
  - eexists. unfold row_of. apply in_map_iff. exists (v, x). split; [reflexivity|exact X].
Qed.

Section Calls.
  Variables Pattern SimConfig Counter Protocol Obs : Type.
  Variables (device_pattern : option Pattern) (cloud : bool) (is_analog : Protocol -> bool) (make_sim_config : Protocol -> R -> SimConfig).
  Variable emulate : option SimConfig -> sequence Pattern -> option vec -> option vec.
  Variable emulate_dm : option SimConfig -> sequence Pattern -> option vec -> option dm.
  Variable emulate_sample : option SimConfig -> sequence Pattern -> option vec -> nat -> option Counter.
  Variable cloud_sample : sequence Pattern -> nat -> option Counter.
  Variables (invert_vec : vec -> vec) (invert_dm : dm -> dm) (invert_counter : Counter -> Counter).
  Variable observe : Obs -> vec -> option C.
  Notation world := (world Pattern SimConfig).
  Notation World := (World Pattern SimConfig).
  Notation Sequence := (Sequence Pattern).
  Notation native := (native Pattern SimConfig).
  Notation sim_config := (sim_config Pattern SimConfig).
  Notation run := (run Pattern SimConfig device_pattern cloud emulate invert_vec).
  Notation sample := (sample Pattern SimConfig Counter device_pattern cloud emulate_sample cloud_sample invert_counter).
  Notation expectation := (expectation Pattern SimConfig device_pattern cloud emulate invert_vec Obs observe).
  Notation run_noisy := (run_noisy Pattern SimConfig Protocol cloud is_analog make_sim_config emulate_dm invert_dm).
  Notation prepare := (prepare Pattern SimConfig device_pattern).
  Notation over_rows := (over_rows Pattern SimConfig).

  (** A converted circuit as it was made: nothing assigned, no pattern, not measured. *)
  Definition fresh (w : world) : Prop := s_patterns _ (native w) = [] /\ s_measured _ (native w) = false.
  (** The sequence that is simulated for a row. *)
  Definition played (w : world) (d : dict) : sequence Pattern := Sequence [] (for_variables (s_variables _ (native w)) d) (match device_pattern with Some p => [p] | None => [] end) true.

  Lemma prepare_row w d : fresh w -> d <> [] ->
    (given (s_variables _ (native w)) d -> prepare w d = (Some (played w d), w)) /\ (~ given (s_variables _ (native w)) d -> prepare w d = (None, w)).
  Proof.
    intros [F1 F2] N. unfold M_PulserBackend.prepare, assign_parameters. destruct d as [|kv d]; [congruence|]. set (dd := kv :: d) in *. unfold build. fold (for_variables (s_variables _ (native w)) dd).
    assert (G : forallb (fun v => existsb (fun kv => String.eqb (fst kv) v) (for_variables (s_variables _ (native w)) dd)) (s_variables _ (native w)) = true <-> given (s_variables _ (native w)) dd).
    { rewrite forallb_forall. split; intros H v V.
      - specialize (H v V). apply existsb_exists in H. destruct H as ([k x] & I & E). apply String.eqb_eq in E. cbn in E. subst k. apply filter_In in I. destruct I as [I _]. eauto.
      - destruct (H v V) as [x X]. apply existsb_exists. exists (v, x). split; [|apply String.eqb_refl]. apply filter_In. split; [exact X|]. apply existsb_exists. exists v. split; [exact V|apply String.eqb_refl]. }
    split; intros H.
    - rewrite (proj2 G H). cbn [option_map]. unfold finish, add_pattern, measure, played. rewrite F1, F2. destruct device_pattern; reflexivity.
    - destruct (forallb _ _) eqn:E; [exfalso; apply H, G; reflexivity|reflexivity].
  Qed.
  Lemma over_rows_pure {A} (f : world -> dict -> option A * world) (g : dict -> option A) w rows : Forall (fun d => f w d = (g d, w)) rows -> over_rows f w rows = (osequence (map g rows), w).
  Proof. intros F. induction F as [|d rows H _ IH]; [reflexivity|]. cbn [M_PulserBackend.over_rows map osequence]. rewrite H. destruct (g d) as [a|]; [|reflexivity]. rewrite IH. destruct (osequence (map g rows)); reflexivity. Qed.
  Definition oif {A} (P : bool) (x : option A) : option A := if P then x else None.
  (** Whether the values of all variables are given. *)
  Definition givenb (vs : list string) (d : dict) : bool := forallb (fun v => existsb (fun kv => String.eqb (fst kv) v) d) vs.
  Lemma givenb_spec vs d : givenb vs d = true <-> given vs d.
  Proof.
    unfold givenb, given. rewrite forallb_forall. split; intros H v V; specialize (H v V).
    - apply existsb_exists in H. destruct H as ([k x] & I & E). apply String.eqb_eq in E. cbn in E. subst k. eauto.
    - destruct H as [x X]. apply existsb_exists. exists (v, x). split; [exact X|apply String.eqb_refl].
  Qed.
  Lemma prepare_row' w d : fresh w -> d <> [] -> prepare w d = (oif (givenb (s_variables _ (native w)) d) (Some (played w d)), w).
  Proof. intros F N. destruct (prepare_row w d F N) as [A B]. destruct (givenb (s_variables _ (native w)) d) eqn:E; cbn [oif]; [apply A, givenb_spec, E|apply B; intros G; apply givenb_spec in G; congruence]. Qed.

  (** Runs: one state for each row, the reversed final state of the simulator for the values of that row; nothing is left behind. *)
  Theorem C68_run : forall w d state e, fresh w -> d <> [] -> cloud = false -> given (s_variables _ (native w)) d ->
    snd (run w d state e) = w /\
    (forall l, fst (run w d state e) = Some l -> length l = batch d /\ (forall s, state = Some s -> (length s <= 1)%nat) /\
       forall i, (i < batch d)%nat -> exists x, emulate (sim_config w) (played w (row_of d (batch d) i)) (option_map (fun s => rev (hd [] s)) state) = Some x /\
         nth_error l i = Some (match e with Big => rev x | Little => invert_vec (rev x) end)) /\
    ((forall s, state = Some s -> length s = 1%nat) -> (forall i, (i < batch d)%nat -> emulate (sim_config w) (played w (row_of d (batch d) i)) (option_map (fun s => rev (hd [] s)) state) <> None) -> fst (run w d state e) <> None).
  Proof.
    intros w d state e F N CL G. unfold M_PulserBackend.run. rewrite CL.
    assert (ST : start state = match state with None => Some None | Some s => if Nat.ltb 1 (length s) then None else match s with [] => None | v :: _ => Some (Some (rev v)) end end).
    { unfold start, convert_init_state. destruct state as [s|]; [|reflexivity]. destruct (Nat.ltb 1 (length s)); [reflexivity|]. destruct s; reflexivity. }
    rewrite ST. set (g st d := option_map (@rev C) (emulate (sim_config w) (played w d) st)).
    assert (P : forall st, over_rows (run_row _ _ device_pattern emulate st) w (to_rows d) = (osequence (map (g st) (to_rows d)), w)).
    { intros st. apply over_rows_pure. apply Forall_forall. intros r R. pose proof (rows_nonempty d N) as NE. rewrite Forall_forall in NE. specialize (NE r R).
      apply In_nth_error in R. destruct R as [i R]. assert (I : (i < batch d)%nat) by (rewrite <- rows_length; apply nth_error_Some; congruence). rewrite (rows_nth d i N I) in R. injection R as <-.
      unfold run_row. rewrite (proj1 (prepare_row w _ F NE)) by (apply given_row; exact G). reflexivity. }
    assert (Q : forall st l, osequence (map (g st) (to_rows d)) = Some l -> length l = batch d /\ forall i, (i < batch d)%nat -> exists x, emulate (sim_config w) (played w (row_of d (batch d) i)) st = Some x /\ nth_error l i = Some (rev x)).
    { intros st l O. apply osequence_map_some in O. split; [rewrite <- rows_length; symmetry; clear - O; induction O; cbn; congruence|]. intros i I. pose proof (rows_nth d i N I) as R. generalize dependent (row_of d (batch d) i). clear - O. intros rr R. revert i R. induction O as [|r y rs ys H _ IH]; intros [|i] R; try discriminate R.
      - injection R as ->. unfold g in H. destruct (emulate _ _ _) as [x|]; [|discriminate H]. injection H as <-. eauto.
      - exact (IH i R). }
    assert (Z : forall st, (forall i, (i < batch d)%nat -> emulate (sim_config w) (played w (row_of d (batch d) i)) st <> None) -> osequence (map (g st) (to_rows d)) <> None).
    { intros st H. assert (A : Forall (fun r => g st r <> None) (to_rows d)). { apply Forall_forall. intros r R. apply In_nth_error in R. destruct R as [i R]. assert (I : (i < batch d)%nat) by (rewrite <- rows_length; apply nth_error_Some; congruence). rewrite (rows_nth d i N I) in R. injection R as <-. unfold g. specialize (H i I). destruct (emulate _ _ _); [discriminate|congruence]. }
      clear - A. induction A as [|r rs H _ IH]; [discriminate|]. cbn. destruct (g st r); [|congruence]. destruct (osequence (map (g st) rs)); [discriminate|congruence]. }
    assert (FIN : forall st, let r := lift Pattern SimConfig (fun l => match e with Big => l | Little => map invert_vec l end) (over_rows (run_row _ _ device_pattern emulate st) w (to_rows d)) in
      snd r = w /\ (forall l, fst r = Some l -> length l = batch d /\ forall i, (i < batch d)%nat -> exists x, emulate (sim_config w) (played w (row_of d (batch d) i)) st = Some x /\ nth_error l i = Some (match e with Big => rev x | Little => invert_vec (rev x) end)) /\
      ((forall i, (i < batch d)%nat -> emulate (sim_config w) (played w (row_of d (batch d) i)) st <> None) -> fst r <> None)).
    { intros st. cbn zeta. rewrite P. unfold lift. cbn [fst snd]. split; [reflexivity|]. split.
      - intros l H. destruct (osequence (map (g st) (to_rows d))) as [l0|] eqn:O; [|discriminate H]. destruct (Q st l0 O) as [L A]. injection H as <-. split; [destruct e; [exact L|rewrite map_length; exact L]|]. intros i I. destruct (A i I) as (x & E1 & E2). exists x. split; [exact E1|]. destruct e; [exact E2|apply map_nth_error; exact E2].
      - intros H. specialize (Z st H). destruct (osequence _); [discriminate|congruence]. }
    destruct state as [s|].
    - destruct (Nat.ltb 1 (length s)) eqn:LT; [|destruct s as [|v s]].
      + cbn. split; [reflexivity|]. split; [discriminate|]. intros H. apply Nat.ltb_lt in LT. specialize (H s eq_refl). lia.
      + cbn. split; [reflexivity|]. split; [discriminate|]. intros H. specialize (H [] eq_refl). discriminate H.
      + destruct (FIN (Some (rev v))) as (F1 & F2 & F3). split; [exact F1|]. split; [|intros _; exact F3]. intros l H. destruct (F2 l H) as [L A]. split; [exact L|]. split; [|exact A]. intros s' E. injection E as <-. apply Nat.ltb_ge in LT. exact LT.
    - destruct (FIN None) as (F1 & F2 & F3). split; [exact F1|]. split; [|intros _; exact F3]. intros l H. destruct (F2 l H) as [L A]. split; [exact L|]. split; [|exact A]. discriminate.
  Qed.
  (** A missing value, a batch of initial states and, for runs, a cloud configuration are refused; nothing is left behind. *)
  Theorem C68_refused : forall w d state e, fresh w -> d <> [] -> (0 < batch d)%nat ->
    cloud = true \/ (~ given (s_variables _ (native w)) d) \/ (exists s, state = Some s /\ (1 < length s)%nat) -> run w d state e = (None, w).
  Proof.
    intros w d state e F N B H. unfold M_PulserBackend.run. destruct cloud; [reflexivity|]. destruct H as [H|H]; [discriminate H|]. destruct (start state) as [st|] eqn:ST; [|reflexivity]. destruct H as [H|(s & -> & L)].
    - assert (P : over_rows (run_row _ _ device_pattern emulate st) w (to_rows d) = (None, w)); [|rewrite P; reflexivity].
      pose proof (rows_nth d 0 N B) as R. pose proof (rows_nonempty d N) as NE. destruct (to_rows d) as [|r rs]; [discriminate R|]. injection R as ->. inversion NE as [|? ? N1 _]; subst. cbn [M_PulserBackend.over_rows]. unfold run_row. rewrite (proj2 (prepare_row w _ F N1)) by (rewrite given_row; exact H). reflexivity.
    - unfold start, convert_init_state in ST. apply Nat.ltb_lt in L. rewrite L in ST. discriminate ST.
  Qed.
  (** * Histories *)
  Inductive call := CRun (d : dict) (state : option (list vec)) (e : endian) | CSample (d : dict) (n_shots : nat) (state : option (list vec)) (e : endian) | CExpectation (d : dict) (obs : list Obs) (state : option (list vec)) (e : endian).
  Inductive answer := ARun (x : option (list vec)) | ASample (x : option (list Counter)) | AExpectation (x : option (list (list R))).
  Definition perform (w : world) (c : call) : answer * world :=
    match c with
    | CRun d s e => let r := run w d s e in (ARun (fst r), snd r)
    | CSample d n s e => let r := sample w d n s e in (ASample (fst r), snd r)
    | CExpectation d o s e => let r := expectation w d o s e in (AExpectation (fst r), snd r)
    end.
  Definition with_values (c : call) : Prop := match c with CRun d _ _ | CSample d _ _ _ | CExpectation d _ _ _ => d <> [] end.
  Fixpoint performs (w : world) (h : list call) : list answer * world :=
    match h with [] => ([], w) | c :: r => let '(a, w') := perform w c in let '(l, w'') := performs w' r in (a :: l, w'') end.
  Lemma run_keeps w d s e : fresh w -> d <> [] -> snd (run w d s e) = w.
  Proof.
    intros F N. unfold M_PulserBackend.run. destruct cloud; [reflexivity|]. destruct (start s) as [st|]; [|reflexivity]. unfold lift. cbn [snd].
    rewrite (over_rows_pure _ (fun r => option_map (@rev C) (obind (oif (givenb (s_variables _ (native w)) r) (Some (played w r))) (fun x => emulate (sim_config w) x st)))); [reflexivity|].
    pose proof (rows_nonempty d N) as NE. eapply Forall_impl; [|exact NE]. intros r R. cbn beta. unfold run_row. rewrite (prepare_row' w r F R). destruct (givenb _ r); reflexivity.
  Qed.
  Lemma sample_keeps w d n s e : fresh w -> d <> [] -> snd (sample w d n s e) = w.
  Proof.
    intros F N. unfold M_PulserBackend.sample. destruct (Nat.ltb n 1); [reflexivity|]. destruct (start s) as [st|]; [|reflexivity]. unfold lift. cbn [snd].
    rewrite (over_rows_pure _ (fun r => obind (oif (givenb (s_variables _ (native w)) r) (Some (played w r))) (fun x => if cloud then cloud_sample x n else emulate_sample (sim_config w) x st n))); [reflexivity|].
    pose proof (rows_nonempty d N) as NE. eapply Forall_impl; [|exact NE]. intros r R. cbn beta. unfold sample_row. rewrite (prepare_row' w r F R). destruct (givenb _ r); reflexivity.
  Qed.
  (** Noiseless calls with values do not see one another: whatever was called before, and whether or not it failed, the answer is that of a new backend. *)
  Theorem C68_history : forall w h, fresh w -> Forall with_values h -> performs w h = (map (fun c => fst (perform w c)) h, w).
  Proof.
    intros w h F H. induction H as [|c h V _ IH]; [reflexivity|]. cbn [performs map]. assert (K : snd (perform w c) = w).
    { destruct c as [d s e|d n s e|d o s e]; cbn [perform snd]; [apply run_keeps; assumption|apply sample_keeps; assumption|]. unfold M_PulserBackend.expectation. pose proof (run_keeps w d s e F V) as R. destruct (run w d s e) as [[l|] w']; cbn [snd] in *; exact R. }
    destruct (perform w c) as [a w'] eqn:E. cbn [snd] in K. subst w'. rewrite IH. cbn [fst]. reflexivity.
  Qed.
  (** Samples: one for each row, none for less than one shot. *)
  Theorem C68_sample : forall w d n state e, (n = 0%nat -> sample w d n state e = (None, w)) /\
    (fresh w -> d <> [] -> cloud = false -> (1 <= n)%nat -> forall l, fst (sample w d n state e) = Some l -> length l = batch d /\
       forall i, (i < batch d)%nat -> given (s_variables _ (native w)) d /\ exists x, emulate_sample (sim_config w) (played w (row_of d (batch d) i)) (option_map (fun s => rev (hd [] s)) state) n = Some x /\
         nth_error l i = Some (match e with Big => x | Little => invert_counter x end)).
  Proof.
    intros w d n state e. split; [intros ->; reflexivity|]. intros F N CL L l H. unfold M_PulserBackend.sample in H. destruct (Nat.ltb n 1) eqn:LT; [apply Nat.ltb_lt in LT; lia|]. destruct (start state) as [st|] eqn:ST; [|discriminate H].
    assert (S : st = option_map (fun s => rev (hd [] s)) state).
    { unfold start, convert_init_state in ST. destruct state as [s|]; [|injection ST as <-; reflexivity]. destruct (Nat.ltb 1 (length s)); [discriminate ST|]. destruct s; [discriminate ST|]. injection ST as <-. reflexivity. }
    rewrite <- S. unfold lift in H. cbn [fst] in H.
    set (g := fun r => obind (oif (givenb (s_variables _ (native w)) r) (Some (played w r))) (fun x => emulate_sample (sim_config w) x st n)).
    assert (P : over_rows (sample_row _ _ _ device_pattern cloud emulate_sample cloud_sample st n) w (to_rows d) = (osequence (map g (to_rows d)), w)).
    { apply over_rows_pure. pose proof (rows_nonempty d N) as NE. eapply Forall_impl; [|exact NE]. intros r R. cbn beta. unfold sample_row, g. rewrite (prepare_row' w r F R), CL. destruct (givenb _ r); reflexivity. }
    rewrite P in H. cbn [fst] in H. destruct (osequence (map g (to_rows d))) as [l0|] eqn:O; [|discriminate H]. injection H as <-. apply osequence_map_some in O.
    assert (LL : length l0 = batch d) by (rewrite <- rows_length; symmetry; clear - O; induction O; cbn; congruence).
    split; [destruct e; [exact LL|rewrite map_length; exact LL]|]. intros i I. pose proof (rows_nth d i N I) as R.
    assert (X : exists x, g (row_of d (batch d) i) = Some x /\ nth_error l0 i = Some x). { clear - O R. generalize dependent (row_of d (batch d) i). intros rr R. revert i R. induction O as [|r y rs ys H _ IH]; intros [|i] R; try discriminate R; [injection R as ->; eauto|exact (IH i R)]. }
    destruct X as (x & X1 & X2). unfold g in X1. destruct (givenb (s_variables _ (native w)) (row_of d (batch d) i)) eqn:G; [|discriminate X1]. cbn in X1. split; [apply givenb_spec in G; apply given_row in G; exact G|].
    exists x. split; [exact X1|]. destruct e; [exact X2|apply map_nth_error; exact X2].
  Qed.
  (** Expectations: a row for each row of the batch, with a value for each observable, of the state that run gives. *)
  Theorem C68_expectation : forall w d obs state e table, fst (expectation w d obs state e) = Some table ->
    exists l, fst (run w d state e) = Some l /\ length table = length l /\
      forall i s o k, nth_error l i = Some s -> nth_error obs k = Some o -> exists rw z, nth_error table i = Some rw /\ length rw = length obs /\ nth_error rw k = Some (fst z) /\ observe o s = Some z.
  Proof.
    intros w d obs state e table H. unfold M_PulserBackend.expectation in H. destruct (run w d state e) as [[l|] w']; [|discriminate H]. cbn [fst] in *. exists l. split; [reflexivity|]. apply osequence_map_some in H. split; [symmetry; clear - H; induction H; cbn; congruence|].
    intros i s o k I K. revert i I. induction H as [|s' row l table E _ IH]; intros [|i] I; try discriminate I; [|exact (IH i I)]. injection I as ->. exists row. destruct (osequence (map (fun o => observe o s) obs)) as [zs|] eqn:O; [|discriminate E]. injection E as <-. apply osequence_map_some in O.
    assert (X : exists z, observe o s = Some z /\ nth_error zs k = Some z). { clear - O K. revert k K. induction O as [|o' z os zs H _ IH]; intros [|k] K; try discriminate K; [injection K as ->; eauto|exact (IH k K)]. }
    destruct X as (z & X1 & X2). exists z. split; [reflexivity|]. split; [rewrite map_length; symmetry; clear - O; induction O; cbn; congruence|]. split; [apply map_nth_error; exact X2|exact X1].
  Qed.
  (** * What noisy runs leave behind *)
  Lemma noisy_sim w p d st x : snd (run_noisy_sim Pattern SimConfig Protocol make_sim_config emulate_dm p d st w x) = World (native w) (Some (make_sim_config p x)).
  Proof.
    unfold run_noisy_sim. set (w' := World (native w) (Some (make_sim_config p x))). generalize (to_rows d). intros rows. induction rows as [|r rows IH]; [reflexivity|]. cbn [M_PulserBackend.over_rows].
    assert (E : snd (noisy_row Pattern SimConfig emulate_dm st w' r) = w') by (unfold noisy_row; destruct (assign_parameters _ _ _) as [[s a]|]; reflexivity).
    destruct (noisy_row Pattern SimConfig emulate_dm st w' r) as [[m|] w'']; cbn [snd] in E; subst w''; [|reflexivity]. destruct (over_rows _ w' rows) as [l w2]. exact IH.
  Qed.
  (** Finding: the noise of a noisy run stays in the configuration of the backend (backend.py:252-257), and every later call without noise is simulated with it. *)
  Theorem C68_noise_refuted : forall w ps p x d st e, cloud = false -> is_analog p = true ->
    snd (run_noisy w (ps ++ [p]) [x] d st e) = World (native w) (Some (make_sim_config p x)) /\
    (fresh w -> forall d' r, d' <> [] -> to_rows d' = [r] -> given (s_variables _ (native w)) r -> fst (run (snd (run_noisy w (ps ++ [p]) [x] d st e)) d' None Big) = option_map (fun v => [rev v]) (emulate (Some (make_sim_config p x)) (played w r) None)).
  Proof.
    intros w ps p x d st e CL AN. assert (A : snd (run_noisy w (ps ++ [p]) [x] d st e) = World (native w) (Some (make_sim_config p x))).
    { unfold M_PulserBackend.run_noisy. rewrite CL, rev_app_distr. cbn [rev app]. rewrite AN. unfold lift. cbn [snd M_PulserBackend.over_probs]. pose proof (noisy_sim w p d st x) as E. destruct (run_noisy_sim _ _ _ _ _ p d st w x) as [[m|] w']; cbn [snd] in *; exact E. }
    split; [exact A|]. intros F d' r N R G. rewrite A. set (w' := World (native w) (Some (make_sim_config p x))). assert (F' : fresh w') by exact F. unfold M_PulserBackend.run. rewrite CL. cbn [start]. rewrite R. pose proof (rows_nonempty d' N) as NE. rewrite R in NE. inversion NE as [|? ? N1 _]; subst.
    unfold lift. cbn [M_PulserBackend.over_rows fst]. unfold run_row. rewrite (proj1 (prepare_row w' r F' N1) G). cbn [M_PulserBackend.sim_config w']. change (played w' r) with (played w r). destruct (emulate _ _ _); reflexivity.
  Qed.
  (** Finding: with an empty dictionary of values the native sequence itself is measured (backend.py:172-173), so a second such call is refused. *)
  Theorem C68_empty_refuted : forall w state state' e e', fresh w -> s_variables _ (native w) = [] -> cloud = false -> fst (run w [] state e) <> None -> fst (run (snd (run w [] state e)) [] state' e') = None.
  Proof.
    intros w state state' e e' [F1 F2] V CL H. assert (M : s_measured _ (native (snd (run w [] state e))) = true /\ s_variables _ (native (snd (run w [] state e))) = []).
    { unfold M_PulserBackend.run in *. rewrite CL in *. destruct (start state) as [st|]; [|cbn in H; congruence]. unfold lift in *. cbn [to_rows M_PulserBackend.over_rows] in *. unfold run_row, M_PulserBackend.prepare, assign_parameters in *. rewrite V in *. unfold finish, add_pattern, measure in *. rewrite F1, F2 in *.
      destruct device_pattern; cbn [obind s_measured s_variables] in *; rewrite ?F2 in *; cbn [obind s_measured] in *; (destruct (emulate _ _ _); [|cbn in H; congruence]); cbn; rewrite ?V; split; reflexivity. }
    destruct M as [M MV]. set (w1 := snd (run w [] state e)) in *. unfold M_PulserBackend.run. rewrite CL. destruct (start state') as [st|]; [|reflexivity]. unfold lift. cbn [to_rows M_PulserBackend.over_rows fst]. unfold run_row, M_PulserBackend.prepare, assign_parameters. rewrite MV. unfold finish, add_pattern, measure. rewrite M. destruct device_pattern; cbn [obind]; rewrite ?M; reflexivity.
  Qed.
  (** Noisy runs: for each probability and each row, the flipped density matrix that the simulator gives for the values of that row. *)
  Theorem C68_noisy : forall w ps p probs d st, fresh w -> d <> [] -> cloud = false -> is_analog p = true -> given (s_variables _ (native w)) d ->
    fst (run_noisy w (ps ++ [p]) probs d st Big) =
    osequence (map (fun x => osequence (map (fun r => option_map (fun m => rev (map (@rev C) m)) (emulate_dm (Some (make_sim_config p x)) (Sequence [] (for_variables (s_variables _ (native w)) r) [] false) st)) (to_rows d))) probs).
  Proof.
    intros w ps p probs d st F N CL AN G. unfold M_PulserBackend.run_noisy. rewrite CL, rev_app_distr. cbn [rev app]. rewrite AN. unfold lift. cbn [fst]. set (g := fun (x : R) (r : dict) => option_map (fun m => rev (map (@rev C) m)) (emulate_dm (Some (make_sim_config p x)) (Sequence [] (for_variables (s_variables _ (native w)) r) [] false) st)).
    assert (S : forall s0, let w0 := World (native w) s0 in forall x, run_noisy_sim Pattern SimConfig Protocol make_sim_config emulate_dm p d st w0 x = (osequence (map (g x) (to_rows d)), World (native w) (Some (make_sim_config p x)))).
    { intros s0 w0 x. unfold run_noisy_sim. cbn [M_PulserBackend.native w0]. apply over_rows_pure. apply Forall_forall. intros r R. pose proof (rows_nonempty d N) as NE. rewrite Forall_forall in NE. specialize (NE r R).
      apply In_nth_error in R. destruct R as [i R]. assert (I : (i < batch d)%nat) by (rewrite <- rows_length; apply nth_error_Some; congruence). rewrite (rows_nth d i N I) in R. injection R as <-. set (r := row_of d (batch d) i) in *. assert (GR : givenb (s_variables _ (native w)) r = true) by (apply givenb_spec, given_row, G).
      unfold noisy_row, assign_parameters. cbn [M_PulserBackend.native M_PulserBackend.sim_config]. destruct r as [|kv r']; [congruence|]. set (rr := kv :: r') in *. unfold build. fold (for_variables (s_variables _ (native w)) rr).
      replace (forallb _ (s_variables _ (native w))) with true; [cbn [option_map]; destruct F as [-> ->]; reflexivity|]. symmetry. apply forallb_forall. intros v V. unfold givenb in GR. rewrite forallb_forall in GR. specialize (GR v V). apply existsb_exists in GR. destruct GR as ([k x'] & I' & E). apply String.eqb_eq in E. cbn in E. subst k. apply existsb_exists. exists (v, x'). split; [|apply String.eqb_refl]. apply filter_In. split; [exact I'|]. apply existsb_exists. exists v. split; [exact V|apply String.eqb_refl]. }
    assert (H : forall probs s0, fst (over_probs Pattern SimConfig Protocol make_sim_config emulate_dm p d st (World (native w) s0) probs) = osequence (map (fun x => osequence (map (g x) (to_rows d))) probs)).
    { clear probs. induction probs as [|x probs IH]; intros s0; [reflexivity|]. cbn [M_PulserBackend.over_probs map osequence]. rewrite (S s0 x). destruct (osequence (map (g x) (to_rows d))) as [m|]; [|reflexivity]. specialize (IH (Some (make_sim_config p x))). destruct (over_probs _ _ _ _ _ p d st _ probs) as [l w2]. cbn [fst] in *. rewrite IH. destruct (osequence _); reflexivity. }
    specialize (H probs (sim_config w)). replace (World (native w) (sim_config w)) with w in H by (destruct w; reflexivity). rewrite H. destruct (osequence _); reflexivity.
  Qed.
  (** Finding: samples from the cloud ignore the initial state (backend.py:93-113). *)
  Theorem C68_cloud_refuted : forall w d n v e, cloud = true -> sample w d n (Some [v]) e = sample w d n None e.
  Proof.
    intros w d n v e CL. unfold M_PulserBackend.sample. destruct (Nat.ltb n 1); [reflexivity|].
    assert (H : forall rows st st' w0, over_rows (sample_row _ _ _ device_pattern cloud emulate_sample cloud_sample st n) w0 rows = over_rows (sample_row _ _ _ device_pattern cloud emulate_sample cloud_sample st' n) w0 rows).
    { intros rows st st'. induction rows as [|r rows IH]; intros w0; [reflexivity|]. cbn [M_PulserBackend.over_rows]. assert (E : sample_row _ _ _ device_pattern cloud emulate_sample cloud_sample st n w0 r = sample_row _ _ _ device_pattern cloud emulate_sample cloud_sample st' n w0 r) by (unfold sample_row; rewrite CL; reflexivity).
      rewrite E. destruct (sample_row _ _ _ device_pattern cloud emulate_sample cloud_sample st' n w0 r) as [[a|] w']; [|reflexivity]. rewrite IH. reflexivity. }
    change (start (Some [v])) with (Some (Some (rev v))). change (start None) with (Some (@None vec)). cbn match. rewrite (H _ (Some (rev v)) None). reflexivity.
  Qed.
End Calls.

(** A simulator that leaves the initial state as it is: the run without noise returns the state it was given. *)
Definition keep (c : option nat) (s : sequence nat) (st : option vec) : option vec := st.
Definition keep_dm (c : option nat) (s : sequence nat) (st : option vec) : option dm := option_map (fun v => map (fun a => map (fun b => Cmult a (Cconj b)) v) v) st.
Definition example_world : world nat nat := World nat nat (Sequence nat ["x"%string] [] [] false) None.
Definition ket0 : vec := [RtoC 1; RtoC 0].
(** Finding: a noisy run does not reverse the initial state for the simulator as a run without noise does (backend.py:232, 261), so that |0> becomes |1>: the density matrix of an idle circuit started in |0> is that of |1>, while
    the run without noise gives |0>. *)
Theorem C68_initial_state_refuted :
  fst (run nat nat None false keep (fun v => v) example_world [("x"%string, [1])] (Some [ket0]) Big) = Some [ket0] /\
  exists m, fst (run_noisy nat nat unit false (fun _ => true) (fun _ _ => 0%nat) keep_dm (fun m => m) example_world [tt] [1 / 10] [("x"%string, [1])] (Some ket0) Big) = Some [[m]] /\
    nth 0 (nth 0 m []) (RtoC 0) = RtoC 0 /\ nth 1 (nth 1 m []) (RtoC 0) = RtoC 1.
Proof.
  split; [reflexivity|]. eexists. split; [reflexivity|]. split; cbn; unfold RtoC, Cmult, Cconj; cbn; f_equal; ring.
Qed.
(** Finding: the addressing pattern of the register is left out of noisy runs: a simulator that refuses sequences with a pattern refuses the run without noise and accepts the noisy one. *)
Theorem C68_pattern_refuted :
  fst (run nat nat (Some 7%nat) false (fun c s st => match s_patterns nat s with [] => Some ket0 | _ => None end) (fun v => v) example_world [("x"%string, [1])] None Big) = None /\
  fst (run_noisy nat nat unit false (fun _ => true) (fun _ _ => 0%nat) (fun c s st => match s_patterns nat s with [] => Some [ket0] | _ => None end) (fun m => m) example_world [tt] [1 / 10] [("x"%string, [1])] None Big) <> None.
Proof. split; [reflexivity|discriminate]. Qed.
Example C68_instance : fresh nat nat example_world /\ given (s_variables nat (native nat nat example_world)) [("x"%string, [1; 2]); ("y"%string, [5])] /\ batch [("x"%string, [1; 2]); ("y"%string, [5])] = 2%nat /\
  row_of [("x"%string, [1; 2]); ("y"%string, [5])] 2 1 = [("x"%string, [2]); ("y"%string, [5])].
Proof. repeat split; try reflexivity. intros v [<-|[]]. eexists. left. reflexivity. Qed.
Print Assumptions C68_run.
Print Assumptions C68_refused.
Print Assumptions C68_history.
Print Assumptions C68_sample.
Print Assumptions C68_expectation.
Print Assumptions C68_noisy.
Print Assumptions C68_noise_refuted.
Print Assumptions C68_empty_refuted.
