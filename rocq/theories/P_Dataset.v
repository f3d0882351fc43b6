(** C35 (infinite dataset) and C36 (parameter vectors). *)
From Coq Require Import List Arith Bool Lia Permutation.
From Verif Require Import M_Dataset.
Import ListNotations.

(** ** C35 *)
Section C35.
  Variable row : Type.
  Variable shuffle : nat -> list nat -> list nat.
  (** random.shuffle permutes its argument. *)
  Hypothesis shuffle_perm : forall k l, Permutation (shuffle k l) l.

  Definition op_is_next (i : nat) (o : op) : bool := match o with Next j => Nat.eqb i j | NewIter => false end.
  (** The outputs that iterator [i] gave. *)
  Definition outputs_of (i : nat) (log : list (op * out row)) : list (out row) := map snd (filter (fun ox => op_is_next i (fst ox)) log).
  (** Specification: the list of outputs is exactly the samples of the dataset in some order. *)
  Definition sample_of (ts : list (tensor row)) (idx : nat) : out row := Sample idx (map (fun t => nth_error t idx) ts).
  Definition one_pass (ts : list (tensor row)) (n : nat) (outs : list (out row)) : Prop := Permutation outs (map (sample_of ts) (seq 0 n)).

  Definition inv (ts : list (tensor row)) (n : nat) (d : ds row) : Prop :=
    tensors d = ts /\ Permutation (indices d) (seq 0 n) /\ forall i p, nth_error (iters d) i = Some (Some p) -> p <= n.

  Lemma set_iter_same i v l : i < length l -> nth_error (set_iter i v l) i = Some v.
  Proof. revert i. induction l as [|x l IH]; intros [|i] H; simpl in *; try lia; [reflexivity|]. apply IH. lia. Qed.
  Lemma set_iter_other i j v l : i <> j -> nth_error (set_iter i v l) j = nth_error l j.
  Proof. revert i j. induction l as [|x l IH]; intros [|i] [|j] H; simpl; try reflexivity; try lia. apply IH. lia. Qed.

  Lemma yield_spec ts n d i p : inv ts n d -> i < length (iters d) -> p <= n -> 0 < n ->
    exists d' idx, yield_at d i p = (d', sample_of ts idx) /\ inv ts n d' /\ indices d' = indices d /\
      idx = nth (if Nat.eqb p n then 0 else p) (indices d) 0 /\ nth_error (iters d') i = Some (Some (S (if Nat.eqb p n then 0 else p))) /\
      (forall j, j <> i -> nth_error (iters d') j = nth_error (iters d) j).
  Proof.
    intros (H1 & H2 & H3) Hi Hp Hn. pose proof (Permutation_length H2) as L. rewrite seq_length in L. unfold yield_at, sample_of. rewrite H1.
    destruct (Nat.eqb_spec p n) as [->|Np].
    - rewrite (proj2 (nth_error_None (indices d) n)) by lia. destruct (nth_error (indices d) 0) as [idx|] eqn:E; [|apply nth_error_None in E; lia].
      eexists _, idx. split; [reflexivity|]. split; [|split; [reflexivity|]].
      + split; [reflexivity|]. split; [exact H2|]. cbn [iters]. intros j q. destruct (Nat.eq_dec i j) as [<-|Nj].
        * rewrite set_iter_same by exact Hi. intros Q. injection Q as <-. lia.
        * rewrite set_iter_other by exact Nj. apply H3.
      + split; [symmetry; apply nth_error_nth, E|]. cbn [iters]. split; [apply set_iter_same, Hi|]. intros j Nj. apply set_iter_other. auto.
    - destruct (nth_error (indices d) p) as [idx|] eqn:E; [|apply nth_error_None in E; lia].
      eexists _, idx. split; [reflexivity|]. split; [|split; [reflexivity|]].
      + split; [reflexivity|]. split; [exact H2|]. cbn [iters]. intros j q. destruct (Nat.eq_dec i j) as [<-|Nj].
        * rewrite set_iter_same by exact Hi. intros Q. injection Q as <-. lia.
        * rewrite set_iter_other by exact Nj. apply H3.
      + split; [symmetry; apply nth_error_nth, E|]. cbn [iters]. split; [apply set_iter_same, Hi|]. intros j Nj. apply set_iter_other. auto.
  Qed.

  (** Every reachable state is sane. *)
  Lemma inv_step ts n d o : sizes_agree ts = true -> 0 < n -> inv ts n d -> inv ts n (fst (step shuffle d o)).
  Proof.
    intros Hs Hn Hd. destruct Hd as (H1 & H2 & H3). destruct o as [|i]; cbn [step].
    - split; [exact H1|]. split; [exact H2|]. cbn [fst iters]. intros j q. destruct (lt_dec j (length (iters d))).
      + rewrite nth_error_app1 by assumption. apply H3.
      + rewrite nth_error_app2 by lia. destruct (j - length (iters d)) as [|[|m]]; simpl; discriminate.
    - destruct (nth_error (iters d) i) as [[p|]|] eqn:E; [| |cbn [fst]; repeat split; assumption].
      + destruct (yield_spec ts n d i p) as (d' & idx & -> & I & _); [split; auto|apply nth_error_Some; congruence|eapply H3, E|exact Hn|]. exact I.
      + rewrite H1, Hs. destruct (yield_spec ts n {| tensors := ts; indices := shuffle (shuffles d) (indices d); iters := iters d; shuffles := S (shuffles d) |} i 0) as (d' & idx & -> & I & _).
        * split; [reflexivity|]. split; [cbn [indices]; rewrite shuffle_perm; exact H2|exact H3].
        * cbn [iters]. apply nth_error_Some; congruence.
        * lia.
        * exact Hn.
        * exact I.
  Qed.
  Lemma inv_run ts n ops : sizes_agree ts = true -> 0 < n -> forall d, inv ts n d -> inv ts n (fst (run shuffle d ops)).
  Proof.
    intros Hs Hn. induction ops as [|o ops IH]; intros d Hd; [exact Hd|]. cbn [run]. pose proof (inv_step ts n d o Hs Hn Hd) as H1. destruct (step shuffle d o) as [d1 x].
    specialize (IH d1 H1). destruct (run shuffle d1 ops) as [d2 xs]. exact IH.
  Qed.

  (** Continuing a started iterator: positions advance cyclically, whatever other started iterators do. *)
  Definition no_start (d : ds row) (i : nat) (o : op) : Prop :=
    match o with NewIter => True | Next j => j = i \/ exists p, nth_error (iters d) j = Some (Some p) end.
  (** Outputs of i over a sequence without the start of another iterator, from position p: samples at positions p, p+1, ... cyclically. *)
  Fixpoint cyc (l : list nat) (p k : nat) : list nat :=
    match k with O => [] | S k' => let q := if Nat.eqb p (length l) then 0 else p in nth q l 0 :: cyc l (S q) k' end.
  Lemma no_start_step ts n d i o o' : inv ts n d -> 0 < n -> sizes_agree ts = true -> (exists p, nth_error (iters d) i = Some (Some p)) -> no_start d i o -> no_start d i o' -> no_start (fst (step shuffle d o)) i o'.
  Proof.
    intros Hd Hn Hs (p & Hp) Ho Ho'. destruct o' as [|j']; [exact I|]. destruct Ho' as [->|(q & Hq)]; [left; reflexivity|]. right.
    destruct o as [|j]; cbn [step].
    - exists q. cbn [fst iters]. rewrite nth_error_app1; [exact Hq|]. apply nth_error_Some. congruence.
    - assert (exists r, nth_error (iters d) j = Some (Some r)) as (r & Hr) by (destruct Ho as [->|Ho]; [eexists; exact Hp|exact Ho]).
      rewrite Hr. destruct (yield_spec ts n d j r Hd) as (d' & idx & -> & _ & _ & _ & S1 & S2); [apply nth_error_Some; congruence|destruct Hd as (_ & _ & H3); eapply H3, Hr|exact Hn|].
      cbn [fst]. destruct (Nat.eq_dec j' j) as [->|N]; [eexists; exact S1|]. exists q. rewrite S2 by exact N. exact Hq.
  Qed.
  Lemma run_cyc ts n i ops : sizes_agree ts = true -> 0 < n -> forall d p, inv ts n d -> nth_error (iters d) i = Some (Some p) -> Forall (no_start d i) ops ->
    outputs_of i (snd (run shuffle d ops)) = map (sample_of ts) (cyc (indices d) p (length (filter (op_is_next i) ops))).
  Proof.
    intros Hs Hn. induction ops as [|o ops IH]; intros d p Hd Hp F; [reflexivity|]. inversion F as [|? ? F1 F2]; subst.
    assert (F2' : Forall (no_start (fst (step shuffle d o)) i) ops) by (eapply Forall_impl; [|exact F2]; intros o' Ho'; eapply no_start_step; eauto).
    pose proof (inv_step ts n d o Hs Hn Hd) as Hd1. cbn [run]. assert (Ln : length (indices d) = n) by (destruct Hd as (_ & H2 & _); apply Permutation_length in H2; rewrite seq_length in H2; exact H2).
    destruct o as [|j].
    - cbn [step] in *. specialize (IH _ p Hd1). destruct (run shuffle _ ops) as [d2 xs]. cbn [snd] in *. unfold outputs_of. cbn [filter fst op_is_next]. apply IH; [|exact F2'].
      cbn [fst iters]. rewrite nth_error_app1; [exact Hp|]. apply nth_error_Some. congruence.
    - assert (exists r, nth_error (iters d) j = Some (Some r)) as (r & Hr) by (destruct F1 as [->|F1]; [eexists; exact Hp|exact F1]).
      cbn [step] in *. rewrite Hr in *. destruct (yield_spec ts n d j r Hd) as (d' & idx & E & _ & I' & X & S1 & S2); [apply nth_error_Some; congruence|destruct Hd as (_ & _ & H3); eapply H3, Hr|exact Hn|].
      rewrite E in *. cbn [fst] in *. cbn [filter op_is_next]. destruct (Nat.eqb_spec i j) as [<-|N].
      + rewrite Hp in Hr. injection Hr as <-. cbn [length cyc]. rewrite Ln. specialize (IH d' _ Hd1 S1 F2'). destruct (run shuffle d' ops) as [d2 xs]. cbn [snd] in *. unfold outputs_of in *. cbn [filter fst op_is_next]. rewrite Nat.eqb_refl. cbn [map snd].
        rewrite IH, X, I'. reflexivity.
      + specialize (IH d' p Hd1). rewrite S2 in IH by exact N. specialize (IH Hp F2'). destruct (run shuffle d' ops) as [d2 xs]. cbn [snd] in *. unfold outputs_of in *. cbn [filter fst op_is_next].
        destruct (Nat.eqb_spec i j); [congruence|]. rewrite IH, I'. reflexivity.
  Qed.

  (** A cyclic walk of length n visits every position once. *)
  Lemma cyc_tail l : forall k p, p + k <= length l -> cyc l p k = firstn k (skipn p l).
  Proof.
    induction k as [|k IH]; intros p H; [reflexivity|]. cbn [cyc]. destruct (Nat.eqb_spec p (length l)); [lia|]. cbn zeta. rewrite IH by lia.
    assert (E : skipn p l = nth p l 0 :: skipn (S p) l).
    { clear IH. assert (Hp : p < length l) by lia. clear H. revert p n Hp. induction l as [|x l IHl]; intros p n Hp; [simpl in *; lia|]. destruct p as [|p]; [reflexivity|]. simpl. apply IHl; simpl in *; lia. }
    rewrite E. reflexivity.
  Qed.
  Lemma cyc_app l a : forall p b, 0 < length l -> p + a = length l -> cyc l p (a + b) = cyc l p a ++ cyc l (length l) b.
  Proof.
    induction a as [|a IH]; intros p b Hl H; [rewrite Nat.add_0_r in H; subst; reflexivity|]. cbn [Nat.add cyc app]. destruct (Nat.eqb_spec p (length l)); [lia|]. rewrite IH by lia. reflexivity.
  Qed.
  Lemma cyc_wrap l k : 0 < length l -> cyc l (length l) k = cyc l 0 k.
  Proof. intros H. destruct k; [reflexivity|]. cbn [cyc]. rewrite Nat.eqb_refl. destruct (Nat.eqb_spec 0 (length l)); [lia|]. reflexivity. Qed.
  Lemma cyc_perm l p : 0 < length l -> p <= length l -> Permutation (cyc l p (length l)) l.
  Proof.
    intros Hl Hp. assert (E : cyc l p (length l) = cyc l p ((length l - p) + p)) by (f_equal; lia). rewrite E, cyc_app, cyc_wrap, !cyc_tail by lia.
    rewrite (firstn_all2 (skipn p l)) by (rewrite skipn_length; lia). simpl. rewrite Permutation_app_comm. rewrite firstn_skipn. reflexivity.
  Qed.

  (** Every block of [n] consecutive samples of an iterator contains every sample exactly once: after any history, for a started iterator and any interleaving with other started iterators. *)
  Theorem C35_every_pass : forall ts n d0 history ops i,
    new_ds ts = Some d0 -> sizes_agree ts = true -> length (nth 0 ts []) = n -> 0 < n ->
    let d := fst (run shuffle d0 history) in
    (exists p, nth_error (iters d) i = Some (Some p)) -> Forall (no_start d i) ops -> length (filter (op_is_next i) ops) = n ->
    one_pass ts n (outputs_of i (snd (run shuffle d ops))).
  Proof.
    intros ts n d0 history ops i Hn Hs Hl Hpos d (p & Hp) F L.
    assert (I0 : inv ts n d0).
    { unfold new_ds in Hn. destruct ts as [|t ts]; [discriminate|]. injection Hn as <-. simpl in Hl. subst n. split; [reflexivity|]. split; [reflexivity|]. intros j q. destruct j; discriminate. }
    assert (I1 : inv ts n d) by (apply inv_run; assumption). rewrite (run_cyc ts n i ops Hs Hpos d p I1 Hp F). unfold one_pass. apply Permutation_map. rewrite L.
    destruct I1 as (_ & H2 & H3). pose proof (Permutation_length H2) as Ln. rewrite seq_length in Ln. rewrite <- Ln at 1. rewrite cyc_perm; [exact H2|lia|]. rewrite Ln. eapply H3, Hp.
  Qed.
  (** The first [n] samples of a fresh iterator are one pass too. *)
  Theorem C35_first_pass : forall ts n d0 history ops i,
    new_ds ts = Some d0 -> sizes_agree ts = true -> length (nth 0 ts []) = n -> 0 < n ->
    let d := fst (run shuffle d0 history) in
    nth_error (iters d) i = Some None -> ops = repeat (Next i) n -> one_pass ts n (outputs_of i (snd (run shuffle d ops))).
  Proof.
    intros ts n d0 history ops i Hn Hs Hl Hpos d Hp ->.
    assert (I0 : inv ts n d0).
    { unfold new_ds in Hn. destruct ts as [|t ts]; [discriminate|]. injection Hn as <-. simpl in Hl. subst n. split; [reflexivity|]. split; [reflexivity|]. intros j q. destruct j; discriminate. }
    assert (I1 : inv ts n d) by (apply inv_run; assumption).
    (* the first next behaves as if the iterator were started at position 0 of the shuffled list *)
    set (d1 := {| tensors := ts; indices := shuffle (shuffles d) (indices d); iters := set_iter i (Some 0) (iters d); shuffles := S (shuffles d) |}).
    assert (Hi : i < length (iters d)) by (apply nth_error_Some; congruence).
    assert (J1 : inv ts n d1).
    { destruct I1 as (H1 & H2 & H3). split; [reflexivity|]. split; [cbn [d1 indices]; rewrite shuffle_perm; exact H2|]. cbn [d1 iters]. intros j q. destruct (Nat.eq_dec i j) as [<-|N].
      - rewrite set_iter_same by exact Hi. intros Q. injection Q as <-. lia.
      - rewrite set_iter_other by exact N. apply H3. }
    assert (E : snd (run shuffle d (repeat (Next i) n)) = snd (run shuffle d1 (repeat (Next i) n))).
    { destruct n as [|m]; [lia|]. cbn [repeat run]. replace (step shuffle d (Next i)) with (step shuffle d1 (Next i)); [reflexivity|].
      cbn [step]. rewrite Hp. cbn [d1 iters]. rewrite set_iter_same by exact Hi. destruct I1 as (H1 & H2 & H3). rewrite H1, Hs. unfold yield_at. cbn [indices iters tensors shuffles d1].
      assert (SS : forall v l, set_iter i v (set_iter i (Some 0) l) = set_iter i v l) by (intros v l; clear; revert i; induction l as [|x l IH]; intros [|i]; simpl; try reflexivity; rewrite IH; reflexivity).
      rewrite !SS. destruct (nth_error (shuffle (shuffles d) (indices d)) 0) as [idx|] eqn:Z; [reflexivity|]. exfalso.
      apply nth_error_None in Z. rewrite (Permutation_length (shuffle_perm _ _)), (Permutation_length H2), seq_length in Z. lia. }
    rewrite E. rewrite (run_cyc ts n i _ Hs Hpos d1 0 J1).
    - unfold one_pass. apply Permutation_map. replace (length (filter (op_is_next i) (repeat (Next i) n))) with n.
      + destruct J1 as (_ & H2 & H3). pose proof (Permutation_length H2) as Ln. rewrite seq_length in Ln. rewrite <- Ln at 1. rewrite cyc_perm; [exact H2|lia|lia].
      + clear. induction n as [|n IH]; [reflexivity|]. simpl. rewrite Nat.eqb_refl. simpl. congruence.
    - cbn [d1 iters]. apply set_iter_same, Hi.
    - apply Forall_forall. intros o H. apply repeat_spec in H as ->. left. reflexivity.
  Qed.
End C35.

(** Findings. Starting a second iterator reshuffles the list the first one is walking through: the first one may then repeat a sample within a pass. *)
Definition swap2 (k : nat) (l : list nat) : list nat := match k, l with 1, [a; b] => [b; a] | _, _ => l end.
Theorem C35_two_iterators_refuted : exists d0, (forall k l, Permutation (swap2 k l) l) /\ new_ds [[10; 20]] = Some d0 /\
  outputs_of nat 0 (snd (run swap2 d0 [NewIter; NewIter; Next 0; Next 1; Next 0])) = [Sample 0 [Some 10]; Sample 0 [Some 10]].
Proof.
  eexists. split; [|split; [reflexivity|reflexivity]]. intros [|[|k]] l; [reflexivity| |reflexivity]. destruct l as [|a [|b [|c l]]]; try reflexivity. apply perm_swap.
Qed.
(** With no rows, the first next never returns; tensors of different lengths are detected. *)
Theorem C35_empty_refuted : forall shuffle, (forall k, shuffle k [] = []) -> exists d0, new_ds [@nil nat] = Some d0 /\
  outputs_of nat 0 (snd (run shuffle d0 [NewIter; Next 0])) = [Loops].
Proof. intros sh H. eexists. split; [reflexivity|]. cbn. rewrite H. reflexivity. Qed.
Theorem C35_size_check : forall (row : Type) shuffle (ts : list (tensor row)) d i, tensors d = ts -> sizes_agree ts = false -> nth_error (iters d) i = Some None ->
  snd (step shuffle d (Next i)) = SizeError.
Proof. intros row sh ts d i <- H E. cbn [step]. rewrite E, H. reflexivity. Qed.

Definition rotate (k : nat) (l : list nat) : list nat := match l with [] => [] | x :: r => r ++ [x] end.
Example C35_witness : exists d0, (forall k l, Permutation (rotate k l) l) /\ new_ds [[10; 20; 30]; [1; 2; 3]] = Some d0 /\ sizes_agree [[10; 20; 30]; [1; 2; 3]] = true /\
  (exists p, nth_error (iters (fst (run rotate d0 [NewIter; Next 0]))) 0 = Some (Some p)) /\
  outputs_of nat 0 (snd (run rotate (fst (run rotate d0 [NewIter; Next 0])) [Next 0; Next 0; Next 0])) = [Sample 2 [Some 30; Some 3]; Sample 0 [Some 10; Some 1]; Sample 1 [Some 20; Some 2]].
Proof.
  eexists. split; [intros k [|x l]; [reflexivity|simpl; rewrite Permutation_app_comm; reflexivity]|]. split; [reflexivity|]. split; [reflexivity|]. split; [eexists; reflexivity|reflexivity].
Qed.

(** ** C36 *)
Section C36.
  Context {V : Type}.
  (** The number of entries of the trainable parameters. *)
  Fixpoint total (m : list (param V)) : nat := match m with [] => 0 | p :: r => (if requires_grad p then length (entries p) else 0) + total r end.
  (** [q] is [p] except possibly for its entries, which may differ only if the parameter requires grad. *)
  Definition same_frame (p q : param V) : Prop := requires_grad p = requires_grad q /\ shape p = shape q /\ length (entries p) = length (entries q) /\ (requires_grad p = false -> p = q).

  Lemma frame_refl p : same_frame p p. Proof. repeat split. Qed.
  Lemma frames_refl m : Forall2 same_frame m m. Proof. induction m; constructor; [apply frame_refl|assumption]. Qed.
  Lemma skipn_add {A} (a b : nat) (l : list A) : skipn b (skipn a l) = skipn (a + b) l.
  Proof. revert l. induction a as [|a IH]; intros l; [reflexivity|]. destruct l as [|x l]; simpl; [destruct b; reflexivity|apply IH]. Qed.

  Lemma firstn_plus {A} (n k : nat) (l : list A) : firstn n l ++ firstn k (skipn n l) = firstn (n + k) l.
  Proof. revert l. induction n as [|n IH]; intros l; [reflexivity|]. destruct l as [|x l]; simpl; [destruct k; reflexivity|f_equal; apply IH]. Qed.

  Lemma set_from_frame (m : list (param V)) : forall theta idx, Forall2 same_frame m (fst (set_from m theta idx)).
  Proof.
    induction m as [|p m IH]; intros theta idx; cbn [set_from]; [constructor|]. destruct (requires_grad p) eqn:R.
    - destruct (Nat.eqb_spec (length (firstn (numel p) (skipn idx theta))) (numel p)) as [E|E]; [|apply frames_refl].
      specialize (IH theta (idx + numel p)). destruct (set_from m theta (idx + numel p)) as [r ok]. constructor; [|exact IH]. split; [exact R|]. split; [reflexivity|]. split; [symmetry; exact E|congruence].
    - specialize (IH theta idx). destruct (set_from m theta idx) as [r ok]. constructor; [apply frame_refl|exact IH].
  Qed.
  Lemma set_from_ok (m : list (param V)) : forall theta idx, idx + total m <= length theta ->
    exists m', set_from m theta idx = (m', true) /\ concat (map entries (filter requires_grad m')) = firstn (total m) (skipn idx theta) /\ length (filter requires_grad m') = length (filter requires_grad m).
  Proof.
    induction m as [|p m IH]; intros theta idx L; cbn [set_from filter map concat total] in *.
    - exists []. auto.
    - destruct (requires_grad p) eqn:R.
      + assert (S : length (firstn (numel p) (skipn idx theta)) = numel p) by (rewrite firstn_length, skipn_length; unfold numel; lia).
        rewrite S, Nat.eqb_refl. destruct (IH theta (idx + numel p)) as (m' & -> & C & N); [unfold numel; lia|].
        eexists. split; [reflexivity|]. cbn [filter requires_grad map entries concat]. split; [|simpl; congruence].
        rewrite C, <- skipn_add. unfold numel. apply firstn_plus.
      + destruct (IH theta idx L) as (m' & -> & C & N). eexists. split; [reflexivity|]. cbn [filter]. rewrite R. split; [exact C|exact N].
  Qed.
  Lemma get_length m (theta : list V) : get_parameters m = Some theta -> length theta = total m.
  Proof.
    unfold get_parameters. destruct (filter requires_grad m) as [|q l] eqn:E; [discriminate|]. rewrite <- E. intros H. injection H as <-. clear E.
    induction m as [|p m IH]; [reflexivity|]. cbn [filter map total]. destruct (requires_grad p); cbn [map concat]; [rewrite app_length, IH; reflexivity|exact IH].
  Qed.

  (** set then get, for a vector of the right length *)
  Theorem C36_set_get : forall (m : list (param V)) theta, filter requires_grad m <> [] -> length theta = total m ->
    exists m', set_parameters m theta = (m', true) /\ get_parameters m' = Some theta.
  Proof.
    intros m theta Hne L. destruct (set_from_ok m theta 0) as (m' & E & C & N); [lia|]. exists m'. split; [exact E|]. unfold get_parameters.
    destruct (filter requires_grad m') as [|q l] eqn:F; [destruct (filter requires_grad m); [congruence|discriminate]|]. rewrite <- L in C. simpl skipn in C. rewrite firstn_all in C. congruence.
  Qed.
  (** get then set changes nothing *)
  Theorem C36_get_set : forall (m : list (param V)) theta, get_parameters m = Some theta -> set_parameters m theta = (m, true).
  Proof.
    intros m theta G. unfold get_parameters in G. assert (E : theta = concat (map entries (filter requires_grad m))) by (destruct (filter requires_grad m); [discriminate|injection G as <-; reflexivity]).
    clear G. unfold set_parameters. change theta with ([] ++ theta). change 0 with (length (@nil V)). generalize (@nil V) as pre. subst theta.
    induction m as [|p m IH]; intros pre; cbn [set_from filter map concat]; [reflexivity|]. destruct p as [[|] sh es]; cbn [requires_grad filter map concat entries numel shape].
    - unfold numel. cbn [entries]. rewrite skipn_app, skipn_all, Nat.sub_diag. simpl skipn. rewrite app_nil_l, firstn_app, firstn_all, Nat.sub_diag, firstn_O, app_nil_r, Nat.eqb_refl.
      rewrite app_assoc, <- app_length. rewrite IH. reflexivity.
    - rewrite IH. reflexivity.
  Qed.
  (** Whatever theta is, and also when the call fails half-way: shapes are kept and parameters that do not require grad are not touched. *)
  Theorem C36_frame : forall (m : list (param V)) theta, Forall2 same_frame m (fst (set_parameters m theta)).
  Proof. intros. apply set_from_frame. Qed.
  (** The call fails exactly when theta is too short ... *)
  Lemma set_from_iff (m : list (param V)) : forall theta idx, snd (set_from m theta idx) = true <-> (idx + total m <= length theta \/ total m = 0).
  Proof.
    induction m as [|p m IH]; intros theta idx; [simpl; tauto|]. cbn [set_from total]. set (k := total m) in *. destruct (requires_grad p) eqn:R.
    - unfold numel. destruct (Nat.eqb_spec (length (firstn (length (entries p)) (skipn idx theta))) (length (entries p))) as [E|E].
      + rewrite firstn_length, skipn_length in E. specialize (IH theta (idx + length (entries p))). destruct (set_from m theta (idx + length (entries p))) as [r ok]. cbn [snd] in *. rewrite IH. lia.
      + rewrite firstn_length, skipn_length in E. cbn [snd]. split; [discriminate|lia].
    - specialize (IH theta idx). destruct (set_from m theta idx) as [r ok]. cbn [snd] in *. rewrite IH. lia.
  Qed.
  Theorem C36_too_short : forall (m : list (param V)) theta, snd (set_parameters m theta) = false <-> length theta < total m.
  Proof. intros m theta. pose proof (set_from_iff m theta 0) as H. unfold set_parameters. destruct (snd (set_from m theta 0)); split; try congruence; intros; [|destruct (le_lt_dec (total m) (length theta)) as [L|L]; [|exact L]]; [|exfalso; assert (false = true); [apply H; lia|discriminate]]. assert (true = true) as T by reflexivity. apply H in T. lia. Qed.
  Theorem C36_num_parameters : forall (m : list (param V)) n, num_parameters m = Some n -> n = total m.
  Proof. intros m n. unfold num_parameters. destruct (get_parameters m) eqn:E; [|discriminate]. simpl. intros H. injection H as <-. eapply get_length, E. Qed.
End C36.
(** Findings: a failing call leaves earlier parameters overwritten; surplus entries are ignored silently; num_parameters, documented as the total number of parameters, skips frozen ones. *)
Definition mod3 : list (param nat) := [{| requires_grad := true; shape := [2]; entries := [1; 2] |}; {| requires_grad := false; shape := [1]; entries := [9] |}; {| requires_grad := true; shape := []; entries := [3] |}].
Theorem C36_partial_write_refuted : set_parameters mod3 [7; 8] = ([{| requires_grad := true; shape := [2]; entries := [7; 8] |}; {| requires_grad := false; shape := [1]; entries := [9] |}; {| requires_grad := true; shape := []; entries := [3] |}], false).
Proof. reflexivity. Qed.
Theorem C36_surplus_refuted : snd (set_parameters mod3 [7; 8; 9; 10]) = true /\ get_parameters (fst (set_parameters mod3 [7; 8; 9; 10])) = Some [7; 8; 9].
Proof. split; reflexivity. Qed.
Theorem C36_num_parameters_refuted : num_parameters mod3 = Some 3 /\ list_sum (map numel mod3) = 4.
Proof. split; reflexivity. Qed.
Example C36_witness : filter requires_grad mod3 <> [] /\ length [4; 5; 6] = total mod3 /\ get_parameters mod3 = Some [1; 2; 3].
Proof. repeat split. discriminate. Qed.

Print Assumptions C35_every_pass.
Print Assumptions C35_first_pass.
Print Assumptions C35_two_iterators_refuted.
Print Assumptions C35_empty_refuted.
Print Assumptions C35_size_check.
Print Assumptions C36_set_get.
Print Assumptions C36_get_set.
Print Assumptions C36_frame.
Print Assumptions C36_too_short.
Print Assumptions C36_num_parameters.
