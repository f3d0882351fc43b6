(** C87: switching between optimisation with and without gradients. *)
From Coq Require Import Reals List Arith Bool Lia.
From Coq Require Import List.
From Verif Require Import M_Modes.
Import ListNotations.

(** * Specification *)
(** An optimiser that can work in a mode. *)
Definition suits (b : bool) (o : option optimizer) : bool :=
  match o with None => true | Some (Torch _) => b | Some (Nevergrad _) => negb b end.
Definition chosen (given current : option optimizer) : option optimizer := match given with Some o => Some o | None => current end.

Lemma set_spec k o w : suits (mode w) o = true ->
  let r := set_optimizer k o w in
  snd r = true /\ mode (fst r) = mode w /\ own_flag (fst r) = own_flag w /\ class_flag (fst r) = class_flag w /\ opt (fst r) = o /\ params (fst r) = params w
  /\ (forall i, o = Some (Nevergrad i) -> ng_params (fst r) = Some (params w) /\ budget (fst r) i = Some k).
Proof.
  intros H. unfold set_optimizer, suits in *. destruct o as [[i|i]|].
  - rewrite H. cbv zeta. cbn [fst snd opt params own_flag class_flag]. split; [reflexivity|]. split; [exact H|]. repeat (split; [reflexivity|]). discriminate.
  - destruct (mode w) eqn:E; [discriminate|]. cbv zeta. cbn [fst snd opt params own_flag class_flag]. split; [reflexivity|]. split; [exact E|]. do 4 (split; [reflexivity|]).
    intros j Hj. injection Hj as Hj. subst j. cbn. rewrite Nat.eqb_refl. split; reflexivity.
  - cbv zeta. cbn [fst snd opt params own_flag class_flag]. repeat (split; [reflexivity|]). discriminate.
Qed.
Lemma set_fail k o w : suits (mode w) o = false -> set_optimizer k o w = (w, false).
Proof. unfold suits, set_optimizer. destruct o as [[i|i]|]; intros H; [rewrite H; reflexivity| |discriminate]. destruct (mode w); [reflexivity|discriminate]. Qed.

(** * The contexts *)
(** Whatever happens inside, and whether or not it raises: afterwards the trainer has the mode and the optimiser it had before. *)
Theorem C87_restored : forall k b given body w, suits (mode w) (opt w) = true ->
  let r := fst (grad_opt k b given body w) in mode r = mode w /\ opt r = opt w.
Proof.
  intros k b given body w H. unfold grad_opt.
  destruct (set_optimizer k (match given with Some o => Some o | None => opt (set_mode b w) end) (set_mode b w)) as [w2 e].
  destruct (if e then body w2 else (w2, false)) as [w3 ok].
  pose proof (set_spec k (opt w) (set_mode (mode w) w3)) as S.
  change (mode (set_mode (mode w) w3)) with (mode w) in S. specialize (S H). cbv zeta in S.
  destruct (set_optimizer k (opt w) (set_mode (mode w) w3)) as [w5 r]. cbn [fst] in *. tauto.
Qed.
(** If the chosen optimiser suits the mode, the body runs in that mode with that optimiser and the current model; a Nevergrad optimiser
    starts from the parameters of the model and has the budget max_iter.  The context raises exactly if the body does, and keeps what
    the body did to the model. *)
Theorem C87_inside : forall k b given w, suits (mode w) (opt w) = true -> suits b (chosen given (opt w)) = true ->
  exists w2, mode w2 = b /\ opt w2 = chosen given (opt w) /\ params w2 = params w
    /\ (forall i, chosen given (opt w) = Some (Nevergrad i) -> ng_params w2 = Some (params w) /\ budget w2 i = Some k)
    /\ forall body, snd (grad_opt k b given body w) = snd (body w2) /\ params (fst (grad_opt k b given body w)) = params (fst (body w2)).
Proof.
  intros k b given w H Hb. pose proof (set_spec k (chosen given (opt w)) (set_mode b w) Hb) as S. cbv zeta in S.
  exists (fst (set_optimizer k (chosen given (opt w)) (set_mode b w))). destruct S as (S1 & S2 & _ & _ & S3 & S4 & S5).
  split; [exact S2|]. split; [exact S3|]. split; [exact S4|]. split; [exact S5|]. intros body. unfold grad_opt.
  change (match given with Some o => Some o | None => opt (set_mode b w) end) with (chosen given (opt w)).
  destruct (set_optimizer k (chosen given (opt w)) (set_mode b w)) as [w2 e]. cbn [fst snd] in *. subst e.
  destruct (body w2) as [w3 ok]. pose proof (set_spec k (opt w) (set_mode (mode w) w3)) as S.
  change (mode (set_mode (mode w) w3)) with (mode w) in S. specialize (S H). cbv zeta in S.
  destruct (set_optimizer k (opt w) (set_mode (mode w) w3)) as [w5 r]. cbn [fst snd] in *.
  destruct S as (S6 & _ & _ & _ & _ & S7 & _). rewrite S6, andb_true_r. split; [reflexivity|exact S7].
Qed.
(** Otherwise the context raises without running the body, and the trainer is as before. *)
Theorem C87_refused : forall k b given w, suits (mode w) (opt w) = true -> suits b (chosen given (opt w)) = false ->
  exists w', mode w' = mode w /\ opt w' = opt w /\ params w' = params w /\ forall body, grad_opt k b given body w = (w', false).
Proof.
  intros k b given w H Hb. pose proof (set_fail k (chosen given (opt w)) (set_mode b w) Hb) as F.
  pose proof (set_spec k (opt w) (set_mode (mode w) (set_mode b w)) H) as S. cbv zeta in S.
  exists (fst (set_optimizer k (opt w) (set_mode (mode w) (set_mode b w)))).
  destruct S as (S1 & S2 & _ & _ & S3 & S4 & _). split; [exact S2|]. split; [exact S3|]. split; [exact S4|]. intros body. unfold grad_opt.
  change (match given with Some o => Some o | None => opt (set_mode b w) end) with (chosen given (opt w)). rewrite F. cbn [fst snd].
  destruct (set_optimizer k (opt w) (set_mode (mode w) (set_mode b w))) as [w5 r]. cbn [fst snd andb]. reflexivity.
Qed.
(** A gradient-free optimisation goes on from what the optimisation with gradients has reached. *)
Theorem C87_handover : forall k b given body w i, mode w = false -> opt w = Some (Nevergrad i) ->
  let r := fst (grad_opt k b given body w) in ng_params r = Some (params r) /\ budget r i = Some k.
Proof.
  intros k b given body w i Hm Ho. unfold grad_opt.
  destruct (set_optimizer k (match given with Some o => Some o | None => opt (set_mode b w) end) (set_mode b w)) as [w2 e].
  destruct (if e then body w2 else (w2, false)) as [w3 ok].
  pose proof (set_spec k (opt w) (set_mode (mode w) w3)) as S.
  change (mode (set_mode (mode w) w3)) with (mode w) in S. rewrite Hm, Ho in S. specialize (S eq_refl). cbv zeta in S.
  rewrite Hm, Ho. destruct (set_optimizer k (Some (Nevergrad i)) (set_mode false w3)) as [w5 r]. cbn [fst] in *.
  destruct S as (_ & _ & _ & _ & _ & S6 & S7). destruct (S7 i eq_refl) as [S8 S9]. rewrite S8, S6. auto.
Qed.
Example C87_witness : forall budgets,
  let w := {| class_flag := false; own_flag := None; opt := Some (Nevergrad 4); ng_params := Some [1%R]; params := [2%R]; budget := budgets |} in
  suits (mode w) (opt w) = true /\ suits true (chosen (Some (Torch 7)) (opt w)) = true /\ suits true (chosen None (opt w)) = false.
Proof. intros budgets w. repeat split. Qed.

(** * Histories *)
(** However the contexts are nested, whatever optimisers are set, whatever raises: the optimiser always suits the mode, and the mode
    outside of all contexts is never changed. *)
Lemma run_keeps : forall k (P : world -> world -> Prop), (forall w, P w w) -> (forall a b c, P a b -> P b c -> P a c) ->
  forall cs, Forall (fun c => forall w, suits (mode w) (opt w) = true -> P w (fst (exec k c w)) /\ suits (mode (fst (exec k c w))) (opt (fst (exec k c w))) = true) cs ->
  forall w, suits (mode w) (opt w) = true -> P w (fst (run k cs w)) /\ suits (mode (fst (run k cs w))) (opt (fst (run k cs w))) = true.
Proof.
  intros k P Pr Pt cs F. induction F as [|c r Hc F IH]; intros w H; [split; [apply Pr|exact H]|].
  cbn [run]. destruct (Hc w H) as [H1 H2]. destruct (exec k c w) as [w' ok]. cbn [fst] in *. destruct ok; [|split; assumption].
  destruct (IH w' H2) as [H3 H4]. split; [eapply Pt; eassumption|exact H4].
Qed.
Theorem C87_suits : forall k cs w, suits (mode w) (opt w) = true ->
  mode (fst (run k cs w)) = mode w /\ suits (mode (fst (run k cs w))) (opt (fst (run k cs w))) = true.
Proof.
  intros k cs w H.
  assert (E : forall c w, suits (mode w) (opt w) = true -> mode (fst (exec k c w)) = mode w /\ suits (mode (fst (exec k c w))) (opt (fst (exec k c w))) = true).
  { clear. intros c. destruct c as [o|f ok|b given body]; intros w H; cbn [exec].
    - destruct (suits (mode w) o) eqn:E.
      + destruct (set_spec k o w E) as (_ & S2 & _ & _ & S3 & _). rewrite S2, S3. auto.
      + rewrite (set_fail k o w E). auto.
    - split; [reflexivity|exact H].
    - match goal with |- context [grad_opt k b given ?f w] => destruct (C87_restored k b given f w H) as [S1 S2]; rewrite S1, S2; auto end. }
  destruct (run_keeps k (fun a b => mode b = mode a) (fun _ => eq_refl) (fun a b c H1 H2 => eq_trans H2 H1) cs) with (w := w) as [H1 H2]; [|exact H|auto].
  apply Forall_forall. intros c _ w' H'. exact (E c w' H').
Qed.
Example C87_suits_witness : forall budgets,
  let w := {| class_flag := true; own_flag := None; opt := Some (Torch 0); ng_params := None; params := [2%R]; budget := budgets |} in
  let w' := fst (run 10 [Within false (Some (Nevergrad 1)) [Train (map (Rplus 1)) true; Within true (Some (Torch 3)) [Train (map (Rplus 5)) false]; SetOptimizer None]] w) in
  opt w' = Some (Torch 0) /\ mode w' = true /\ params w' = [5 + (1 + 2)]%R /\ budget w' 1%nat = Some 10%nat.
Proof. intros budgets w w'. cbn. repeat split. Qed.

(** * The flag of the class *)
(** [set_use_grad] decides the mode of a trainer, whatever was done with it before, as long as no context was used. *)
Definition no_context (c : cmd) : bool := match c with Within _ _ _ => false | _ => true end.
Theorem C87_class_flag : forall k cs b w, own_flag w = None -> forallb no_context cs = true -> mode (set_use_grad b (fst (run k cs w))) = b.
Proof.
  intros k cs b. induction cs as [|c r IH]; intros w H N; [unfold mode; cbn; rewrite H; reflexivity|].
  cbn [forallb] in N. apply andb_prop in N as [N1 N2]. cbn [run].
  assert (E : own_flag (fst (exec k c w)) = None).
  { destruct c as [o|f ok|b' given body]; [|exact H|discriminate]. cbn [exec]. unfold set_optimizer.
    destruct o as [[i|i]|]; [destruct (mode w); exact H|destruct (mode w); exact H|exact H]. }
  destruct (exec k c w) as [w' ok]. cbn [fst] in E. destruct ok; [exact (IH w' E N2)|]. unfold mode. cbn. rewrite E. reflexivity.
Qed.
(** An exception ends what follows it, in the body of a context as elsewhere: a sequence that meets one leaves the state in which it was
    raised and raises; a context around a sequence runs that sequence as its body. *)
Theorem C87_exception : forall k c before after w, snd (run k before w) = true -> snd (exec k c (fst (run k before w))) = false ->
  run k (before ++ c :: after) w = exec k c (fst (run k before w))
  /\ forall b given v, exec k (Within b given (before ++ c :: after)) v = grad_opt k b given (run k (before ++ c :: after)) v.
Proof.
  intros k c before after w H E. split.
  - revert w H E. induction before as [|x r IH]; intros w H E.
    + cbn [run app] in *. cbn [fst] in *. destruct (exec k c w) as [w' ok]. cbn [snd] in E. subst ok. reflexivity.
    + cbn [run app] in *. destruct (exec k x w) as [w' ok]. destruct ok; [|discriminate H]. apply IH; assumption.
  - intros b given v. reflexivity.
Qed.
(** After the first use of a context the trainer has its own flag: later calls of [set_use_grad] no longer reach it. *)
Theorem C87_class_flag_refuted : forall k b given body b' w,
  suits (mode w) (opt w) = true -> mode (set_use_grad b' (fst (grad_opt k b given body w))) = mode w.
Proof.
  intros k b given body b' w H. unfold grad_opt.
  destruct (set_optimizer k (match given with Some o => Some o | None => opt (set_mode b w) end) (set_mode b w)) as [w2 e].
  destruct (if e then body w2 else (w2, false)) as [w3 ok].
  pose proof (set_spec k (opt w) (set_mode (mode w) w3)) as S.
  change (mode (set_mode (mode w) w3)) with (mode w) in S. specialize (S H). cbv zeta in S.
  destruct (set_optimizer k (opt w) (set_mode (mode w) w3)) as [w5 r]. cbn [fst] in *. destruct S as (_ & _ & S3 & _).
  unfold mode at 1. cbn [set_use_grad own_flag]. rewrite S3. reflexivity.
Qed.
(** The flag of the class (or of a trainer) can be changed while a trainer holds an optimiser of the other kind; a context then raises at
    its end, and the trainer is left with the optimiser of the context in the wrong mode, its own being lost. *)
Theorem C87_lost_refuted : forall k budgets,
  let w := {| class_flag := true; own_flag := None; opt := Some (Torch 0); ng_params := None; params := [2%R]; budget := budgets |} in
  let w1 := set_use_grad false w in
  let r := grad_opt k true (Some (Torch 1)) (fun w => (w, true)) w1 in
  suits (mode w) (opt w) = true /\ suits (mode w1) (opt w1) = false /\ snd r = false /\ opt (fst r) = Some (Torch 1) /\ mode (fst r) = false.
Proof. intros k budgets w w1 r. repeat split. Qed.

Print Assumptions C87_suits.
