(** C81: ranks and world sizes of the processes of a training. *)
From Coq Require Import NArith List Arith Bool Lia Permutation.
From Verif Require Import M_Processes.
Import ListNotations.
Open Scope nat_scope.

(** Specification: the processes of a training work together if they agree on their number and their ranks are exactly
    0, ..., w-1. *)
Definition together (ps : list process) : Prop := Forall (fun p => world p = length ps) ps /\ Permutation (map rank ps) (seq 0 (length ps)).
(** A program that is not on a cluster. *)
Definition alone (m : machine) : Prop := torchrun m = false /\ num_nodes m <= 1 /\ node_rank m = 0.

Lemma all_some_map : forall {X Y} (f : X -> option Y) (g : X -> Y) l, (forall x, In x l -> f x = Some (g x)) -> all_some (map f l) = Some (map g l).
Proof.
  intros X Y f g l; induction l as [|x l IH]; intros H; [reflexivity |]. cbn [map all_some]. rewrite (H x (or_introl eq_refl)).
  rewrite IH by (intros y Hy; apply H; right; exact Hy). reflexivity.
Qed.
Lemma seq_perm_self : forall (f : nat -> nat) n, (forall i, i < n -> f i = i) -> map f (seq 0 n) = seq 0 n.
Proof. intros f n H. rewrite <- (map_id (seq 0 n)) at 2. apply map_ext_in. intros i Hi. apply in_seq in Hi. apply H. lia. Qed.

(** What is run for one trainer in a clean environment. *)
Lemma setup_clean : forall m a i, torchrun m = false -> node_rank m = 0 ->
  setup_process m a clean i = Some ({| rank := i; local_rank := if on_gpu a then Some i else None; world := nprocs a |},
    {| WORLD_SIZE := Some (nprocs a); LOCAL_RANK := Some (if on_gpu a then Some i else None); RANK := Some i; MASTER_PORT := Some (get_master_port m a clean) |}).
Proof.
  intros m a i T N. unfold setup_process, get_local_rank, get_rank. cbn [LOCAL_RANK WORLD_SIZE RANK clean or_else]. rewrite T, N. cbn [Nat.mul Nat.add].
  destruct (on_gpu a); reflexivity.
Qed.

(** In a clean environment, not on a cluster, a trainer for [n] processes runs n of them which work together; with GPUs
    every process has its own. *)
Theorem C81_alone : forall m s n free a, alone m -> 1 <= n -> new_accelerator m clean s n free = Some a ->
  exists ps e, fit m a clean = Some (ps, e) /\ length ps = n /\ together ps /\
    (forall p, In p ps -> local_rank p = if on_gpu a then Some (rank p) else None) /\ (1 < n -> e = clean).
Proof.
  intros m s n free a (T & N1 & N0) Hn H. unfold new_accelerator in H. destruct (uses_gpu m s) as [g|]; [| discriminate]. rewrite T in H. injection H as <-.
  set (a := {| on_gpu := g; nprocs := n; world_size := n; port := free |}). unfold fit. rewrite T. cbn [negb andb world_size a].
  destruct (Nat.ltb_spec 1 n) as [L | L].
  - assert (E : (if 1 <? num_nodes m then nprocs a / num_nodes m else nprocs a) = n) by (destruct (Nat.ltb_spec 1 (num_nodes m)); [lia | reflexivity]).
    rewrite E. set (g' := fun i => {| rank := i; local_rank := if on_gpu a then Some i else None; world := nprocs a |}).
    rewrite (all_some_map _ g') by (intros i _; rewrite (setup_clean m a i T N0); reflexivity).
    eexists. eexists. split; [reflexivity |]. rewrite map_length, seq_length. split; [reflexivity |]. split; [| split].
    + unfold together. rewrite map_length, seq_length. split.
      * apply Forall_forall. intros p Hp. apply in_map_iff in Hp. destruct Hp as (i & <- & _). reflexivity.
      * rewrite map_map. rewrite seq_perm_self; [apply Permutation_refl | reflexivity].
    + intros p Hp. apply in_map_iff in Hp. destruct Hp as (i & <- & _). reflexivity.
    + reflexivity.
  - assert (n = 1) by lia. subst n. rewrite (setup_clean m a 0 T N0). eexists. eexists. split; [reflexivity |]. split; [reflexivity |]. split; [| split].
    + split; [constructor; [reflexivity | constructor] | apply Permutation_refl].
    + intros p [<- | []]. reflexivity.
    + lia.
Qed.

(** ** Several trainings in one program *)
(** Over every program whose trainers all use several processes: every fit runs as many processes as its trainer asks
    for, and they work together. *)
Theorem C81_many : forall m xs st, alone m -> (forall s n free, In (Make s n free) xs -> 1 < n) -> program m (start clean) xs = Some st ->
  forall a ps, In (a, ps) (fits st) -> length ps = nprocs a /\ together ps.
Proof.
  intros m xs st A Hx.
  assert (G : forall xs st st', environment st = clean -> (forall a, In a (made st) -> 1 < nprocs a /\ exists s free, new_accelerator m clean s (nprocs a) free = Some a) ->
    (forall a ps, In (a, ps) (fits st) -> length ps = nprocs a /\ together ps) -> (forall s n free, In (Make s n free) xs -> 1 < n) -> program m st xs = Some st' ->
    forall a ps, In (a, ps) (fits st') -> length ps = nprocs a /\ together ps).
  { clear xs st Hx. induction xs as [|x xs IH]; intros st st' E M F Hx P; cbn [program] in P; [injection P as <-; exact F |].
    destruct (act m st x) as [st1|] eqn:S; [| discriminate]. apply (IH st1 st'); [| | | intros s n free I; apply (Hx s n free); right; exact I | exact P]; clear IH P.
    - destruct x as [s n free | i]; cbn [act] in S.
      + destruct (new_accelerator m (environment st) s n free); [| discriminate]. injection S as <-. exact E.
      + destruct (nth_error (made st) i) as [a|] eqn:Na; [| discriminate]. rewrite E in S. destruct (M a (nth_error_In _ _ Na)) as (L & s & free & K).
        destruct (C81_alone m s (nprocs a) free a A ltac:(lia) K) as (ps & e & Ef & _ & _ & _ & C). rewrite Ef in S. injection S as <-. apply C; exact L.
    - destruct x as [s n free | i]; cbn [act] in S.
      + rewrite E in S. destruct (new_accelerator m clean s n free) as [a|] eqn:K; [| discriminate]. injection S as <-. cbn [made]. intros b Hb.
        apply in_app_or in Hb. destruct Hb as [Hb | [<- | []]]; [exact (M b Hb) |].
        assert (nprocs a = n). { unfold new_accelerator in K. destruct (uses_gpu m s); [| discriminate]. destruct A as (T & _). rewrite T in K. injection K as <-. reflexivity. }
        rewrite H. split; [apply (Hx s n free); left; reflexivity | exists s, free; exact K].
      + destruct (nth_error (made st) i) as [a|]; [| discriminate]. destruct (fit m a (environment st)); [| discriminate]. injection S as <-. exact M.
    - destruct x as [s n free | i]; cbn [act] in S.
      + destruct (new_accelerator m (environment st) s n free); [| discriminate]. injection S as <-. exact F.
      + destruct (nth_error (made st) i) as [a|] eqn:Na; [| discriminate]. rewrite E in S. destruct (M a (nth_error_In _ _ Na)) as (L & s & free & K).
        destruct (C81_alone m s (nprocs a) free a A ltac:(lia) K) as (ps & e & Ef & Len & Tg & _ & _). rewrite Ef in S. injection S as <-. cbn [fits fst].
        intros b qs I. apply in_app_or in I. destruct I as [I | [[= <- <-] | []]]; [exact (F b qs I) | split; assumption]. }
  intros P. apply (G xs (start clean) st); [reflexivity | intros a [] | intros a ps [] | exact Hx | exact P].
Qed.

(** Over every program whose trainers all use one process on the CPU: every fit runs one process, of rank 0. *)
Theorem C81_single : forall m xs st, alone m -> gpus m = 0 -> (forall s n free, In (Make s n free) xs -> n = 1) -> program m (start clean) xs = Some st ->
  forall a ps, In (a, ps) (fits st) -> length ps = 1 /\ together ps.
Proof.
  intros m xs st A G0 Hx.
  set (ok := fun e => WORLD_SIZE e = None \/ WORLD_SIZE e = Some 1).
  assert (G : forall xs st st', ok (environment st) -> (forall a, In a (made st) -> nprocs a = 1 /\ world_size a = 1 /\ on_gpu a = false) ->
    (forall a ps, In (a, ps) (fits st) -> length ps = 1 /\ together ps) -> (forall s n free, In (Make s n free) xs -> n = 1) -> program m st xs = Some st' ->
    forall a ps, In (a, ps) (fits st') -> length ps = 1 /\ together ps).
  { clear xs st Hx. induction xs as [|x xs IH]; intros st st' E M F Hx P; cbn [program] in P; [injection P as <-; exact F |].
    destruct (act m st x) as [st1|] eqn:S; [| discriminate]. apply (IH st1 st'); [| | | intros s n free I; apply (Hx s n free); right; exact I | exact P]; clear IH P.
    all: destruct x as [s n free | i]; cbn [act] in S; [destruct (new_accelerator m (environment st) s n free) as [b|] eqn:K; [| discriminate]; injection S as <- |
      destruct (nth_error (made st) i) as [b|] eqn:Na; [| discriminate]; destruct (M b (nth_error_In _ _ Na)) as (B1 & B2 & B3);
      unfold fit in S; rewrite B2, andb_false_r in S; unfold setup_process, get_local_rank, get_rank in S; rewrite B3 in S; cbn [option_map fst snd] in S; injection S as <-].
    - exact E.
    - cbn [environment]. unfold ok in *. cbn [WORLD_SIZE]. destruct E as [-> | ->]; right; cbn; [rewrite B1 |]; reflexivity.
    - cbn [made]. intros c Hc. apply in_app_or in Hc. destruct Hc as [Hc | [<- | []]]; [exact (M c Hc) |].
      assert (n = 1) by (apply (Hx s n free); left; reflexivity). subst n. unfold new_accelerator in K. destruct (uses_gpu m s) as [g|] eqn:U; [| discriminate].
      injection K as <-. cbn. destruct (torchrun m); (split; [reflexivity |]; split; [destruct E as [-> | ->]; reflexivity |]); unfold uses_gpu in U; rewrite G0 in U; destruct s; cbv in U; congruence.
    - exact M.
    - exact F.
    - cbn [fits]. intros c qs I. apply in_app_or in I. destruct I as [I | [[= <- <-] | []]]; [exact (F c qs I) |]. split; [reflexivity |].
      split; [constructor; [| constructor]; cbn; destruct E as [-> | ->]; cbn; [rewrite B1 |]; reflexivity | apply Permutation_refl]. }
  intros P. apply (G xs (start clean) st); [left; reflexivity | intros a [] | intros a ps [] | exact Hx | exact P].
Qed.

(** Finding: a fit in one process leaves its world size in the environment, so every trainer made afterwards runs in one
    process, however many it asks for. *)
Theorem C81_sticky_refuted : forall m s n free a1 ps1 e, alone m -> gpus m = 0 -> new_accelerator m clean s 1 free = Some a1 -> fit m a1 clean = Some (ps1, e) ->
  forall s' free' a2, new_accelerator m e s' n free' = Some a2 -> world_size a2 = 1 /\ exists p e', fit m a2 e = Some ([p], e') /\ world p = 1.
Proof.
  intros m s n free a1 ps1 e (T & N1 & N0) G0 K F s' free' a2 K2.
  unfold new_accelerator in K. rewrite T in K. destruct (uses_gpu m s) as [g|] eqn:U; [| discriminate]. injection K as <-.
  unfold fit in F. rewrite T in F. cbn [negb andb world_size or_else WORLD_SIZE clean Nat.ltb Nat.leb] in F. rewrite (setup_clean m _ 0 T N0) in F. injection F as _ <-.
  unfold new_accelerator in K2. rewrite T in K2. destruct (uses_gpu m s') as [g'|] eqn:U'; [| discriminate]. injection K2 as <-. cbn [WORLD_SIZE or_else nprocs world_size].
  split; [reflexivity |]. unfold fit. rewrite T. cbn [negb andb world_size Nat.ltb Nat.leb]. assert (g' = false) by (unfold uses_gpu in U'; rewrite G0 in U'; destruct s'; cbv in U'; congruence). subst g'.
  unfold setup_process, get_local_rank, get_rank. cbn. eexists. eexists. split; reflexivity.
Qed.

(** Finding: a trainer for several processes that was made before such a fit still starts them, but none of them knows of
    the others: each is alone with all the data. *)
Theorem C81_strangers_refuted : forall m n free free', alone m -> gpus m = 0 -> 1 < n ->
  exists st, program m (start clean) [Make Auto n free; Make Auto 1 free'; Run 1; Run 0] = Some st /\
    exists l a ps, fits st = l ++ [(a, ps)] /\ nprocs a = n /\ length ps = n /\ Forall (fun p => world p = 1 /\ grouped p = false) ps.
Proof.
  intros m n free free' (T & N1 & N0) G0 Hn.
  assert (U : uses_gpu m Auto = Some false) by (unfold uses_gpu; rewrite G0; reflexivity).
  unfold program, act, start. cbn [environment made fits]. unfold new_accelerator. rewrite U, T. cbn [option_map WORLD_SIZE clean or_else environment made fits app nth_error].
  unfold fit at 1. rewrite T. cbn [negb andb world_size Nat.ltb Nat.leb]. rewrite (setup_clean m _ 0 T N0). cbn [option_map fst snd environment made fits nth_error app on_gpu nprocs].
  unfold fit. rewrite T. cbn [negb andb world_size nprocs]. destruct (Nat.ltb_spec 1 n); [| lia].
  assert (E : (if 1 <? num_nodes m then n / num_nodes m else n) = n) by (destruct (Nat.ltb_spec 1 (num_nodes m)); [lia | reflexivity]). rewrite E.
  rewrite (all_some_map _ (fun i => {| rank := i; local_rank := None; world := 1 |})).
  2: { intros i _. unfold setup_process, get_local_rank, get_rank. cbn. reflexivity. }
  cbn [option_map fst snd]. eexists. split; [reflexivity |]. cbn [fits app].
  match goal with |- exists l a ps, [?x; (?y, ?z)] = _ /\ _ => exists [x], y, z end. split; [reflexivity |]. split; [reflexivity |]. rewrite map_length, seq_length. split; [reflexivity |].
  apply Forall_forall. intros p Hp. apply in_map_iff in Hp. destruct Hp as (i & <- & _). split; reflexivity.
Qed.

(** Finding: a fit on the CPU writes "None" where a later fit on a GPU in the same program expects a number, and fails. *)
Theorem C81_gpu_after_cpu_refuted : forall m free free', alone m -> 0 < gpus m -> program m (start clean) [Make Cpu 1 free; Run 0; Make Gpu 1 free'; Run 1] = None.
Proof.
  intros m free free' (T & N1 & N0) G0. unfold program, act, start. cbn [environment made fits]. destruct (gpus m) as [|g] eqn:Gm; [lia |]. unfold new_accelerator, uses_gpu. rewrite T, Gm.
  cbn [option_map WORLD_SIZE clean or_else environment made fits app nth_error]. unfold fit at 1. rewrite T. cbn [negb andb world_size Nat.ltb Nat.leb].
  rewrite (setup_clean m _ 0 T N0). cbn [option_map fst snd environment made fits nth_error app on_gpu nprocs].
  cbn [option_map environment made fits app nth_error or_else WORLD_SIZE Nat.ltb Nat.leb]. unfold fit. rewrite T. cbn [negb andb world_size Nat.ltb Nat.leb]. reflexivity.
Qed.

(** ** Ports *)
(** The process works with a port given in the environment; without one with 12364 under torchrun, with a port between 12000 and 16999 in a job of
    SLURM, and otherwise with the one found when the accelerator was made. *)
Theorem C81_port : forall m a e p pr e', setup_process m a e p = Some (pr, e') ->
  exists q, MASTER_PORT e' = Some q /\
    (forall given, MASTER_PORT e = Some given -> q = given) /\
    (MASTER_PORT e = None -> torchrun m = true -> q = 12364%N) /\
    (MASTER_PORT e = None -> torchrun m = false -> job_id m <> None -> (12000 <= q < 17000)%N) /\
    (MASTER_PORT e = None -> torchrun m = false -> job_id m = None -> q = port a).
Proof.
  intros m a e p pr e' H. unfold setup_process in H. destruct (get_local_rank a e p); [| discriminate]. injection H as _ <-. cbn [MASTER_PORT].
  eexists. split; [reflexivity |]. unfold get_master_port. destruct (MASTER_PORT e) as [g|].
  - split; [intros g' E; injection E; auto |]. repeat split; discriminate.
  - split; [discriminate |]. split; [intros _ ->; reflexivity |]. split.
    + intros _ -> J. destruct (job_id m) as [j|]; [| congruence]. assert (j mod 5000 < 5000)%N by (apply N.mod_upper_bound; discriminate). set (x := (j mod 5000)%N) in *. clearbody x. lia.
    + intros _ -> ->. reflexivity.
Qed.
(** The processes of one job meet at one port, on whichever node and whatever port was free there; jobs whose numbers are less than 5000 apart have different ports. *)
Theorem C81_one_port : forall m m' a a' p p' pr pr' e e' j j', torchrun m = false -> torchrun m' = false -> job_id m = Some j -> job_id m' = Some j' ->
  setup_process m a clean p = Some (pr, e) -> setup_process m' a' clean p' = Some (pr', e') ->
  (j = j' -> MASTER_PORT e = MASTER_PORT e') /\ ((j < j' < j + 5000)%N -> MASTER_PORT e <> MASTER_PORT e').
Proof.
  intros m m' a a' p p' pr pr' e e' j j' T T' J J' H H'. unfold setup_process in H, H'. destruct (get_local_rank a clean p); [| discriminate]. destruct (get_local_rank a' clean p'); [| discriminate].
  injection H as _ <-. injection H' as _ <-. cbn [MASTER_PORT]. unfold get_master_port. cbn [MASTER_PORT clean]. rewrite T, T', J, J'. split; [intros ->; reflexivity |].
  intros L E. apply (f_equal (fun o => match o with Some x => x | None => 0%N end)) in E. apply N.add_cancel_l in E.
  assert (D : (j = 5000 * (j / 5000) + j mod 5000)%N) by (apply N.div_mod; discriminate). assert (D' : (j' = 5000 * (j' / 5000) + j' mod 5000)%N) by (apply N.div_mod; discriminate).
  rewrite E in D. set (x := (j' mod 5000)%N) in *. set (y := (j / 5000)%N) in *. set (z := (j' / 5000)%N) in *. clearbody x y z. nia.
Qed.
Example C81_port_instance : exists pr e, setup_process {| torchrun := false; gpus := 2; num_nodes := 2; node_rank := 1; job_id := Some 1234567%N |} {| on_gpu := true; nprocs := 4; world_size := 4; port := 40000%N |} clean 1 = Some (pr, e) /\ MASTER_PORT e = Some 16567%N.
Proof. eexists. eexists. split; reflexivity. Qed.

(** ** Clusters *)
Lemma perm_concat_blocks : forall c n, Permutation (concat (map (fun k => map (fun i => k * c + i) (seq 0 c)) (seq 0 n))) (seq 0 (n * c)).
Proof.
  intros c n. assert (E : forall n s, concat (map (fun k => map (fun i => k * c + i) (seq 0 c)) (seq s n)) = seq (s * c) (n * c)).
  { clear n. induction n as [|n IH]; intros s; [reflexivity |]. cbn [seq map concat]. rewrite IH. cbn [Nat.mul]. rewrite seq_app. f_equal.
    - assert (Q : forall k a b, map (fun i => a + i) (seq b k) = seq (a + b) k).
      { induction k as [|k IHk]; intros a b; [reflexivity |]. cbn [seq map]. f_equal. rewrite IHk. f_equal. lia. }
      rewrite Q. f_equal. lia.
    - f_equal. lia. }
  rewrite (E n 0). apply Permutation_refl.
Qed.

(** The processes of a fit on a cluster with GPUs. *)
Lemma cluster_gpu : forall m s n free, torchrun m = false -> uses_gpu m s = Some true -> 1 < num_nodes m -> 1 < n ->
  cluster_fit m s n free = Some (concat (map (fun k => map (fun i => {| rank := k * cores_per_node m + i; local_rank := Some i; world := n |}) (seq 0 (n / num_nodes m))) (seq 0 (num_nodes m)))).
Proof.
  intros m s n free T U N Hn. unfold cluster_fit. rewrite (all_some_map _ (fun k => map (fun i => {| rank := k * cores_per_node m + i; local_rank := Some i; world := n |}) (seq 0 (n / num_nodes m)))); [reflexivity |].
  intros k _. unfold new_accelerator. assert (Uk : uses_gpu (on_node m k) s = Some true) by exact U. rewrite Uk. cbn [torchrun on_node]. rewrite T. cbn [or_else WORLD_SIZE clean].
  unfold fit. cbn [torchrun on_node num_nodes world_size nprocs]. rewrite T. cbn [negb andb]. destruct (Nat.ltb_spec 1 n); [| lia]. destruct (Nat.ltb_spec 1 (num_nodes m)); [| lia].
  rewrite (all_some_map _ (fun i => {| rank := k * cores_per_node m + i; local_rank := Some i; world := n |})); [reflexivity |].
  intros i _. unfold setup_process, get_local_rank, get_rank. cbn. rewrite T. reflexivity.
Qed.

(** On a cluster with one process for every GPU, the processes work together. *)
Theorem C81_cluster : forall m s n free, torchrun m = false -> uses_gpu m s = Some true -> 1 < num_nodes m -> n = num_nodes m * cores_per_node m ->
  exists ps, cluster_fit m s n free = Some ps /\ length ps = n /\ together ps.
Proof.
  intros m s n free T U N E. assert (C : 1 <= cores_per_node m) by (unfold cores_per_node; destruct (Nat.ltb_spec 0 (gpus m)); lia).
  rewrite cluster_gpu; [| assumption.. | nia]. eexists. split; [reflexivity |]. replace (n / num_nodes m) with (cores_per_node m) by (rewrite E, Nat.mul_comm, Nat.div_mul by lia; reflexivity).
  set (ps := concat _).
  assert (R : map rank ps = concat (map (fun k => map (fun i => k * cores_per_node m + i) (seq 0 (cores_per_node m))) (seq 0 (num_nodes m)))).
  { subst ps. rewrite concat_map, map_map. f_equal. apply map_ext. intros k. rewrite map_map. reflexivity. }
  assert (P : Permutation (map rank ps) (seq 0 n)) by (rewrite R, E; apply perm_concat_blocks).
  assert (L : length ps = n) by (rewrite <- (map_length rank ps), (Permutation_length P), seq_length; reflexivity).
  split; [exact L |]. split; [| rewrite L; exact P]. rewrite L. apply Forall_forall. intros p Hp. subst ps. apply in_concat in Hp. destruct Hp as (l & Hl & Hp).
  apply in_map_iff in Hl. destruct Hl as (k & <- & _). apply in_map_iff in Hp. destruct Hp as (i & <- & _). reflexivity.
Qed.

(** Finding: with fewer processes per node than GPUs, the last process has a rank that is not below their number. *)
Theorem C81_fewer_refuted : forall m s k free, torchrun m = false -> uses_gpu m s = Some true -> 1 < num_nodes m -> 1 <= k -> k < gpus m ->
  exists ps, cluster_fit m s (num_nodes m * k) free = Some ps /\ length ps = num_nodes m * k /\ ~ together ps.
Proof.
  intros m s k free T U N K G. assert (C : cores_per_node m = gpus m) by (unfold cores_per_node; destruct (Nat.ltb_spec 0 (gpus m)); lia).
  rewrite cluster_gpu; [| assumption.. | nia]. eexists. split; [reflexivity |].
  replace (num_nodes m * k / num_nodes m) with k by (rewrite Nat.mul_comm, Nat.div_mul by lia; reflexivity). set (ps := concat _).
  assert (L : length ps = num_nodes m * k).
  { subst ps. assert (H : forall f n s0, length (concat (map (fun j => map (fun i => f j i) (seq 0 k)) (seq s0 n)) : list process) = n * k).
    { intros f n; induction n as [|n IH]; intros s0; [reflexivity |]. cbn [seq map concat]. rewrite app_length, map_length, seq_length, IH. lia. }
    apply (H (fun j i => {| rank := j * cores_per_node m + i; local_rank := Some i; world := num_nodes m * k |})). }
  split; [exact L |]. intros [_ P].
  assert (I : In ((num_nodes m - 1) * cores_per_node m + (k - 1)) (map rank ps)).
  { apply in_map_iff. exists {| rank := (num_nodes m - 1) * cores_per_node m + (k - 1); local_rank := Some (k - 1); world := num_nodes m * k |}. split; [reflexivity |].
    subst ps. apply in_concat. eexists. split; [apply in_map_iff; exists (num_nodes m - 1); split; [reflexivity | apply in_seq; lia] |].
    apply in_map_iff. exists (k - 1). split; [reflexivity | apply in_seq; lia]. }
  apply (Permutation_in _ P) in I. apply in_seq in I. rewrite L, C in I. nia.
Qed.

(** Finding: on the CPUs of several nodes, all nodes number their processes from 0. *)
Theorem C81_cpu_refuted : forall m n free, torchrun m = false -> 1 < num_nodes m -> num_nodes m <= n ->
  exists ps, cluster_fit m Cpu n free = Some ps /\ ~ NoDup (map rank ps).
Proof.
  intros m n free T N Hn. assert (Q : 1 <= n / num_nodes m) by (apply Nat.div_le_lower_bound; lia).
  unfold cluster_fit. rewrite (all_some_map _ (fun k => map (fun i => {| rank := i; local_rank := None; world := n |}) (seq 0 (n / num_nodes m)))).
  - cbn [option_map]. eexists. split; [reflexivity |]. destruct (num_nodes m) as [|[|j]] eqn:E; [lia | lia |].
    cbn [seq map concat]. destruct (n / S (S j)) as [|q] eqn:Eq; [lia |]. cbn [seq map app rank]. intros H. inversion H as [|? ? H1 _]; subst. apply H1.
    rewrite map_app. apply in_or_app. right. left. reflexivity.
  - intros k _. unfold new_accelerator. cbn [uses_gpu torchrun on_node]. rewrite T. cbn [or_else WORLD_SIZE clean]. unfold fit. cbn [torchrun on_node num_nodes world_size nprocs]. rewrite T. cbn [negb andb].
    destruct (Nat.ltb_spec 1 n); [| lia]. destruct (Nat.ltb_spec 1 (num_nodes m)); [| lia].
    rewrite (all_some_map _ (fun i => {| rank := i; local_rank := None; world := n |})); [reflexivity |]. intros i _. reflexivity.
Qed.

(** Finding: if the number of processes is not a multiple of the number of nodes, fewer are started than are waited for. *)
Theorem C81_rest_refuted : forall m s n free ps, torchrun m = false -> uses_gpu m s = Some true -> 1 < num_nodes m -> 1 < n -> n mod num_nodes m <> 0 ->
  cluster_fit m s n free = Some ps -> length ps < n /\ Forall (fun p => world p = n) ps.
Proof.
  intros m s n free ps T U N Hn R H. rewrite cluster_gpu in H by assumption. injection H as <-. split.
  - assert (L : forall k j s0 (f : nat -> nat -> process), length (concat (map (fun a => map (f a) (seq 0 j)) (seq s0 k))) = k * j).
    { induction k as [|k IH]; intros j s0 f; [reflexivity |]. cbn [seq map concat]. rewrite app_length, map_length, seq_length, IH. lia. }
    rewrite (L _ _ _ (fun k i => {| rank := k * cores_per_node m + i; local_rank := Some i; world := n |})).
    pose proof (Nat.div_mod n (num_nodes m) ltac:(lia)). lia.
  - apply Forall_forall. intros p Hp. apply in_concat in Hp. destruct Hp as (l & Hl & Hp). apply in_map_iff in Hl. destruct Hl as (k & <- & _). apply in_map_iff in Hp. destruct Hp as (i & <- & _). reflexivity.
Qed.

(** ** torchrun *)
(** Started by torchrun on GPUs with ranks 0, ..., w-1, the processes work together, whatever number the trainer asks for. *)
Theorem C81_torchrun : forall m s n free p (rs : list (nat * nat)), torchrun m = true -> uses_gpu m s = Some true -> Permutation (map fst rs) (seq 0 (length rs)) ->
  exists ps, torchrun_fit m s n free (map (fun r => torchrun_env (length rs) (fst r) (snd r) p) rs) = Some ps /\ length ps = length rs /\ together ps /\
    map local_rank ps = map (fun r => Some (snd r)) rs.
Proof.
  intros m s n free p rs T U P. unfold torchrun_fit. rewrite map_map.
  set (w := length rs) in *.
  rewrite (all_some_map _ (fun r => [{| rank := fst r; local_rank := Some (snd r); world := w |}])).
  - cbn [option_map]. eexists. split; [reflexivity |].
    assert (E : forall l : list (nat * nat), concat (map (fun r => [{| rank := fst r; local_rank := Some (snd r); world := w |}]) l) = map (fun r => {| rank := fst r; local_rank := Some (snd r); world := w |}) l).
    { induction l as [|x l IH]; [reflexivity |]. cbn [map concat app]. rewrite IH. reflexivity. }
    rewrite E, map_length. split; [reflexivity |]. split; [split |].
    + rewrite map_length. apply Forall_forall. intros q Hq. apply in_map_iff in Hq. destruct Hq as (r & <- & _). reflexivity.
    + rewrite map_map, map_length. exact P.
    + rewrite map_map. reflexivity.
  - intros r _. unfold new_accelerator. rewrite U, T. unfold fit. rewrite T. cbn [negb andb]. unfold setup_process, get_local_rank, get_rank. cbn. rewrite T. reflexivity.
Qed.

(** Finding: on CPUs every process started by torchrun takes the rank 0. *)
Theorem C81_torchrun_cpu_refuted : forall m n free p (rs : list (nat * nat)), torchrun m = true ->
  exists ps, torchrun_fit m Cpu n free (map (fun r => torchrun_env (length rs) (fst r) (snd r) p) rs) = Some ps /\ length ps = length rs /\
    Forall (fun q => rank q = 0 /\ world q = length rs) ps.
Proof.
  intros m n free p rs T. unfold torchrun_fit. rewrite map_map. set (w := length rs).
  rewrite (all_some_map _ (fun _ => [{| rank := 0; local_rank := None; world := w |}])).
  - cbn [option_map]. eexists. split; [reflexivity |]. split.
    + assert (Lw : forall l : list (nat * nat), length (concat (map (fun _ => [{| rank := 0; local_rank := None; world := w |}]) l)) = length l); [| apply Lw].
      clearbody w. clear. intros rs. induction rs as [|r rs IH]; [reflexivity |]. cbn [map concat app length]. rewrite IH. reflexivity.
    + apply Forall_forall. intros q Hq. apply in_concat in Hq. destruct Hq as (l & Hl & Hq). apply in_map_iff in Hl. destruct Hl as (r & <- & _). destruct Hq as [<- | []]. split; reflexivity.
  - intros r _. unfold new_accelerator. cbn [uses_gpu]. rewrite T. unfold fit. rewrite T. reflexivity.
Qed.

(** Machines as assumed. *)
Definition laptop : machine := {| torchrun := false; gpus := 0; num_nodes := 1; node_rank := 0; job_id := None |}.
Definition two_by_four : machine := {| torchrun := false; gpus := 4; num_nodes := 2; node_rank := 0; job_id := Some 7%N |}.
Example laptop_alone : alone laptop /\ gpus laptop = 0 /\ program laptop (start clean) [Make Auto 3 5%N; Make Cpu 2 6%N; Run 1; Run 0] <> None.
Proof. split; [unfold alone; cbn; lia |]. split; [reflexivity | discriminate]. Qed.
Example two_by_four_ranks : uses_gpu two_by_four Auto = Some true /\
  option_map (map rank) (cluster_fit two_by_four Auto 8 1%N) = Some [0; 1; 2; 3; 4; 5; 6; 7] /\
  option_map (map rank) (cluster_fit two_by_four Auto 4 1%N) = Some [0; 1; 4; 5].
Proof. repeat split; reflexivity. Qed.

Print Assumptions C81_alone.
Print Assumptions C81_many.
Print Assumptions C81_single.
Print Assumptions C81_cluster.
Print Assumptions C81_torchrun.
Print Assumptions C81_port.
Print Assumptions C81_one_port.
