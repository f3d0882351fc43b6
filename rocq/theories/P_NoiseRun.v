(** C76: which gates are noisy, over any history of calls. *)
From Coq Require Import List Arith Bool Lia.
From Verif Require Import M_NoiseRun.
Import ListNotations.

(** * Specification *)
(** What the gates of a circuit execute when each carries the noise [f] says; scaled gates are left out. *)
Definition gates_only (p : list native_op) : list native_op :=
  filter (fun o => match o with NGate _ _ => true | NScaled _ _ => false end) p.
Definition expected_leaf (f : leaf -> list nat) (ls : list leaf) (i : nat) : list native_op :=
  match nth_error ls i with
  | None => []
  | Some b => match l_kind b with Gate => [NGate (l_class b) (f b)] | Silent => [NGate (l_class b) []] | Scaled _ => [] end
  end.
Definition expected (f : leaf -> list nat) (ls : list leaf) (t : tree) : list native_op := flat_map (expected_leaf f ls) (leaf_ids t).
(** All objects of the block exist. *)
Definition in_range (ls : list leaf) (t : tree) : Prop := forall i, In i (leaf_ids t) -> i < length ls.
(** The noises given to circuit [c] in sample or expectation calls, as they were when the call was made. *)
Fixpoint given (c : nat) (w : world) (h : list step) : list (list source) :=
  match h with
  | [] => []
  | s :: r => match s with
              | Call c' (Some n) => if Nat.eqb c' c then [nth n (handlers w) []] else []
              | _ => []
              end ++ given c (do w s) r
  end.
(** Steps that give noise to no existing gate. *)
Definition quiet (s : step) : bool :=
  match s with SetNoise _ _ _ | Make _ (Some _) _ | Call _ (Some _) => false | _ => true end.

(** * Lemmas *)
Lemma replace_length {A} (l : list A) : forall i a, length (replace l i a) = length l.
Proof. induction l as [|x l IH]; intros [|i] a; cbn; auto. Qed.
Lemma replace_same {A} (l : list A) : forall i a, i < length l -> nth_error (replace l i a) i = Some a.
Proof. induction l as [|x l IH]; intros [|i] a H; cbn in *; try lia; [reflexivity|]. apply IH. lia. Qed.
Lemma replace_other {A} (l : list A) : forall i j a, i <> j -> nth_error (replace l i a) j = nth_error l j.
Proof. induction l as [|x l IH]; intros [|i] [|j] a H; cbn; try reflexivity; try lia. apply IH. lia. Qed.

Definition renoise (n : option nat) (b : leaf) : leaf := {| l_class := l_class b; l_kind := l_kind b; l_noise := n |}.
Definition hits (cls : option nat) (b : leaf) : bool := match cls with None => true | Some k => Nat.eqb k (l_class b) end.
Lemma set_leaf_length n k ls i : length (set_leaf n k ls i) = length ls.
Proof. unfold set_leaf. destruct (nth_error ls i) as [b|]; [|reflexivity]. destruct (match k with None => true | Some x => Nat.eqb x (l_class b) end); [apply replace_length|reflexivity]. Qed.
Lemma set_leaf_nth n k ls i j b : nth_error ls j = Some b ->
  nth_error (set_leaf n k ls i) j = Some (if Nat.eqb i j && hits k b then renoise n b else b).
Proof.
  intros H. unfold set_leaf. destruct (Nat.eqb_spec i j) as [->|D].
  - rewrite H. cbn [andb]. fold (hits k b). destruct (hits k b); [|exact H]. apply replace_same. apply nth_error_Some. congruence.
  - cbn [andb]. destruct (nth_error ls i) as [b'|]; [|exact H]. destruct (match k with None => true | Some x => Nat.eqb x (l_class b') end); [|exact H].
    rewrite replace_other by exact D. exact H.
Qed.
Lemma fold_set_length n k is : forall ls, length (fold_left (set_leaf n k) is ls) = length ls.
Proof. induction is as [|i is IH]; intros ls; [reflexivity|]. cbn. rewrite IH. apply set_leaf_length. Qed.
Lemma fold_set_nth n k is : forall ls j b, nth_error ls j = Some b ->
  nth_error (fold_left (set_leaf n k) is ls) j = Some (if existsb (Nat.eqb j) is && hits k b then renoise n b else b).
Proof.
  induction is as [|i is IH]; intros ls j b H; [exact H|]. cbn [fold_left existsb].
  rewrite (IH _ _ _ (set_leaf_nth n k ls i j b H)). rewrite (Nat.eqb_sym j i). destruct (Nat.eqb i j); cbn [andb orb].
  - destruct (hits k b) eqn:E.
    + assert (E' : hits k (renoise n b) = true) by (destruct k; exact E). rewrite E'. destruct (existsb (Nat.eqb j) is); reflexivity.
    + rewrite E. rewrite Bool.andb_false_r. reflexivity.
  - reflexivity.
Qed.
Lemma existsb_in j is : existsb (Nat.eqb j) is = true <-> In j is.
Proof. rewrite existsb_exists. split; [intros (x & I & E); apply Nat.eqb_eq in E; now subst|intros I; exists j; split; [exact I|apply Nat.eqb_refl]]. Qed.
Lemma nth_none {A} (l l' : list A) j : length l = length l' -> nth_error l j = None -> nth_error l' j = None.
Proof. rewrite !nth_error_None. lia. Qed.

Lemma gates_app p q : gates_only (p ++ q) = gates_only p ++ gates_only q.
Proof. apply filter_app. Qed.
Lemma gates_flat (f : nat -> list native_op) is : gates_only (flat_map f is) = flat_map (fun i => gates_only (f i)) is.
Proof. induction is as [|i is IH]; [reflexivity|]. cbn [flat_map]. now rewrite gates_app, IH. Qed.
Lemma flat_map_ext_in {A B} (f g : A -> list B) l : (forall a, In a l -> f a = g a) -> flat_map f l = flat_map g l.
Proof. induction l as [|a l IH]; intros H; [reflexivity|]. cbn. rewrite H by (left; reflexivity). rewrite IH; [reflexivity|]. intros b I. apply H. right. exact I. Qed.
Lemma convert_gates hs ls i : gates_only (convert_leaf hs ls i) = expected_leaf (noise_of hs) ls i.
Proof.
  unfold convert_leaf, expected_leaf, convert_plain. destruct (nth_error ls i) as [b|]; [|reflexivity]. destruct (l_kind b) as [| |j] eqn:E; try reflexivity.
  destruct (nth_error ls j); reflexivity.
Qed.
Lemma convert_block_gates hs ls t : gates_only (convert_block hs ls t) = expected (noise_of hs) ls t.
Proof. unfold convert_block, expected. rewrite gates_flat. apply flat_map_ext. intros i. apply convert_gates. Qed.
Lemma noisy_gates hs ls t h : expected (noise_of hs) (set_noise t (Some h) None ls) t = expected (fun _ => digital (nth h hs [])) ls t.
Proof.
  apply flat_map_ext_in. intros i I. unfold expected_leaf. destruct (nth_error ls i) as [b|] eqn:E.
  - unfold set_noise. rewrite (fold_set_nth (Some h) None _ _ _ _ E). apply existsb_in in I. rewrite I. cbn. destruct (l_kind b); reflexivity.
  - rewrite (nth_none ls (set_noise t (Some h) None ls) i (eq_sym (fold_set_length _ _ _ _)) E). reflexivity.
Qed.

(** Objects keep their class and kind. *)
Definition same_but_noise (b b' : leaf) : Prop := l_class b = l_class b' /\ l_kind b = l_kind b'.
Definition extends (ls ls' : list leaf) : Prop := forall i b, nth_error ls i = Some b -> exists b', nth_error ls' i = Some b' /\ same_but_noise b b'.
Lemma extends_refl ls : extends ls ls.
Proof. intros i b H. exists b. split; [exact H|split; reflexivity]. Qed.
Lemma extends_trans a b c : extends a b -> extends b c -> extends a c.
Proof. intros H1 H2 i x H. destruct (H1 i x H) as (y & Hy & E1 & E2). destruct (H2 i y Hy) as (z & Hz & F1 & F2). exists z. split; [exact Hz|]. split; congruence. Qed.
Lemma extends_app ls more : extends ls (ls ++ more).
Proof. intros i b H. exists b. split; [|split; reflexivity]. rewrite nth_error_app1; [exact H|]. apply nth_error_Some. congruence. Qed.
Lemma extends_set t n k ls : extends ls (set_noise t n k ls).
Proof. intros i b H. eexists. split; [apply fold_set_nth, H|]. destruct (_ && _); split; reflexivity. Qed.
Lemma expected_extends f ls ls' t : extends ls ls' -> in_range ls t -> (forall b b', same_but_noise b b' -> f b = f b') -> expected f ls' t = expected f ls t.
Proof.
  intros X R F. apply flat_map_ext_in. intros i I. unfold expected_leaf. pose proof (R i I) as L. apply nth_error_Some in L. destruct (nth_error ls i) as [b|] eqn:E; [|contradiction].
  destruct (X i b E) as (b' & -> & E1 & E2). rewrite <- E1, <- E2, (F b b'); [reflexivity|split; assumption].
Qed.

Section TreeInd.
  Variable P : tree -> Prop.
  Hypothesis HL : forall i, P (Leaf i).
  Hypothesis HC : forall ts, Forall P ts -> P (Comp ts).
  Fixpoint tree_ind' (t : tree) : P t :=
    match t with
    | Leaf i => HL i
    | Comp ts => HC ts ((fix go ts := match ts return Forall P ts with [] => Forall_nil P | t :: r => Forall_cons t (tree_ind' t) (go r) end) ts)
    end.
End TreeInd.

(** What the passes do: nothing happens to existing objects, gates stay the same objects. *)
Definition prefix (ls ls' : list leaf) : Prop := exists more, ls' = ls ++ more.
Lemma prefix_refl ls : prefix ls ls.
Proof. exists []. now rewrite app_nil_r. Qed.
Lemma prefix_trans a b c : prefix a b -> prefix b c -> prefix a c.
Proof. intros [x ->] [y ->]. exists (x ++ y). now rewrite app_assoc. Qed.
Lemma prefix_nth ls ls' i b : prefix ls ls' -> nth_error ls i = Some b -> nth_error ls' i = Some b.
Proof. intros [m ->] H. rewrite nth_error_app1; [exact H|]. apply nth_error_Some. congruence. Qed.
Lemma prefix_len ls ls' : prefix ls ls' -> length ls <= length ls'.
Proof. intros [m ->]. rewrite app_length. lia. Qed.
Lemma prefix_extends ls ls' : prefix ls ls' -> extends ls ls'.
Proof. intros [m ->]. apply extends_app. Qed.
Lemma expected_prefix f ls ls' t : prefix ls ls' -> in_range ls t -> expected f ls' t = expected f ls t.
Proof.
  intros X R. apply flat_map_ext_in. intros i I. unfold expected_leaf. pose proof (R i I) as L. apply nth_error_Some in L. destruct (nth_error ls i) as [b|] eqn:E; [|contradiction].
  now rewrite (prefix_nth _ _ _ _ X E).
Qed.
Lemma passes_spec f t : forall ls, in_range ls t ->
  prefix ls (fst (passes ls t)) /\ in_range (fst (passes ls t)) (snd (passes ls t)) /\ expected f (fst (passes ls t)) (snd (passes ls t)) = expected f ls t.
Proof.
  induction t as [i|ts IH] using tree_ind'; intros ls R.
  - cbn [passes]. destruct (nth_error ls i) as [b|] eqn:E; [|exfalso; apply (proj2 (nth_error_Some ls i)); [apply R; left; reflexivity|exact E]].
    destruct b as [c k n]. destruct k as [| |j]; try (cbn [fst snd]; split; [apply prefix_refl|split; [exact R|reflexivity]]).
    destruct (nth_error ls j) as [g|] eqn:Ej; cbn [fst snd]; [|split; [apply prefix_refl|split; [exact R|reflexivity]]].
    split; [eexists; reflexivity|]. split.
    + intros k [<-|[]]. rewrite app_length. cbn. lia.
    + unfold expected. cbn [leaf_ids flat_map]. unfold expected_leaf. rewrite E. cbn [l_kind].
      rewrite nth_error_app2 by lia. replace (S (length ls) - length ls) with 1 by lia. reflexivity.
  - cbn [passes fst snd]. unfold expected. cbn [leaf_ids].
    set (go := fix go ls ts := match ts with [] => (ls, []) | t :: r => let (ls1, t') := passes ls t in let (ls2, r') := go ls1 r in (ls2, t' :: r') end).
    assert (G : prefix ls (fst (go ls ts)) /\ (forall i, In i (flat_map leaf_ids (snd (go ls ts))) -> i < length (fst (go ls ts))) /\
                flat_map (expected_leaf f (fst (go ls ts))) (flat_map leaf_ids (snd (go ls ts))) = flat_map (expected_leaf f ls) (flat_map leaf_ids ts)).
    { revert ls R. induction IH as [|t ts Ht _ IH]; intros ls R.
      - cbn. split; [apply prefix_refl|]. split; [intros i []|reflexivity].
      - cbn [go]. assert (R1 : in_range ls t) by (intros i I; apply R; cbn [leaf_ids flat_map]; apply in_app_iff; left; exact I).
        assert (R2 : in_range ls (Comp ts)) by (intros i I; apply R; cbn [leaf_ids flat_map] in *; apply in_app_iff; right; exact I).
        destruct (Ht ls R1) as (P1 & Q1 & E1). destruct (passes ls t) as [ls1 t']. cbn [fst snd] in *.
        assert (R3 : in_range ls1 (Comp ts)) by (intros i I; apply R2 in I; apply prefix_len in P1; lia).
        destruct (IH ls1 R3) as (P2 & Q2 & E2). fold go. destruct (go ls1 ts) as [ls2 r']. cbn [fst snd flat_map] in *.
        split; [eapply prefix_trans; eassumption|]. split.
        + intros i I. apply in_app_iff in I. destruct I as [I|I]; [|apply Q2, I]. apply Q1 in I. apply prefix_len in P2. lia.
        + rewrite !flat_map_app. f_equal.
          * change (expected f ls2 t' = expected f ls t). rewrite <- E1. apply expected_prefix; assumption.
          * rewrite E2. change (expected f ls1 (Comp ts) = expected f ls (Comp ts)). apply expected_prefix; assumption. }
    destruct G as (G1 & G2 & G3). split; [exact G1|]. split; [exact G2|exact G3].
Qed.

(** * Theorems *)
(** set_noise gives the noise to exactly the leaf blocks of the given block that are of the target class; nothing else
    changes. *)
Theorem C76_set_noise : forall t n cls ls, length (set_noise t n cls ls) = length ls /\ forall i b, nth_error ls i = Some b ->
  exists b', nth_error (set_noise t n cls ls) i = Some b' /\ l_class b' = l_class b /\ l_kind b' = l_kind b /\
    (In i (leaf_ids t) /\ (forall k, cls = Some k -> k = l_class b) -> l_noise b' = n) /\
    (~ In i (leaf_ids t) \/ (exists k, cls = Some k /\ k <> l_class b) -> b' = b).
Proof.
  intros t n cls ls. split; [apply fold_set_length|]. intros i b H. eexists. split; [apply fold_set_nth, H|].
  destruct (existsb (Nat.eqb i) (leaf_ids t)) eqn:X; cbn [andb].
  - apply existsb_in in X. unfold hits. destruct cls as [k|].
    + destruct (Nat.eqb_spec k (l_class b)) as [E|E].
      * repeat split. intros [N|(k' & E1 & E2)]; [contradiction|]. injection E1 as <-. contradiction.
      * repeat split. intros [_ A]. specialize (A k eq_refl). contradiction.
    + repeat split. intros [N|(k' & E1 & E2)]; [contradiction|discriminate E1].
  - assert (N : ~ In i (leaf_ids t)) by (intros I; apply existsb_in in I; congruence). repeat split. intros [I _]. contradiction.
Qed.

(** A circuit converted with noise in the configuration has that noise on every gate and at readout; converted without, its
    gates have the noise of the gate objects. *)
Theorem C76_make : forall w t cfg d, in_range (leaves w) t -> let w' := do w (Make t cfg d) in
  exists k, nth_error (circuits w') (length (circuits w)) = Some k /\ in_range (leaves w') (c_abstract k) /\ length (circuits w') = S (length (circuits w)) /\
    gates_only (c_program k) = expected (match cfg with Some h => fun _ => digital (nth h (handlers w) []) | None => noise_of (handlers w) end) (leaves w) t /\
    c_readout k = match cfg with Some h => convert_readout (nth h (handlers w) []) | None => None end /\ c_dropout k = d.
Proof.
  intros w t cfg d R. cbn zeta. cbn [do]. unfold make.
  pose proof (passes_spec (match cfg with Some h => fun _ => digital (nth h (handlers w) []) | None => noise_of (handlers w) end) t (leaves w) R) as (P & Q & E).
  destruct (passes (leaves w) t) as [ls1 t']. cbn [fst snd] in *. eexists. cbn [circuits leaves].
  split; [rewrite nth_error_app2 by lia; rewrite Nat.sub_diag; reflexivity|]. cbn [c_abstract c_program c_readout c_dropout].
  split; [destruct cfg as [h|]; [intros i I; unfold set_noise; rewrite fold_set_length; apply Q, I|exact Q]|].
  split; [rewrite app_length; cbn; lia|]. split; [|split; reflexivity].
  rewrite convert_block_gates. destruct cfg as [h|]; [rewrite noisy_gates|]; exact E.
Qed.

Definition is_call (c : nat) (s : step) : bool := match s with Call c' (Some _) => Nat.eqb c' c | _ => false end.
Lemma circuits_frame w s c k : is_call c s = false -> nth_error (circuits w) c = Some k -> nth_error (circuits (do w s)) c = Some k.
Proof.
  intros N H. destruct s as [cl si n|cl i|n|h n|t n cl|t cfg d|c' n|c']; cbn [do]; try exact H.
  - unfold make. destruct (passes (leaves w) t) as [ls1 t']. cbn [circuits]. rewrite nth_error_app1; [exact H|]. apply nth_error_Some. congruence.
  - unfold apply_noise. destruct n as [h|]; [|exact H]. cbn in N. apply Nat.eqb_neq in N. destruct (nth_error (circuits w) c') as [k'|]; [|exact H].
    cbn [circuits]. rewrite replace_other by exact N. exact H.
Qed.
(** Nothing but a sample or expectation call with noise on the circuit itself changes what the circuit executes. *)
Theorem C76_frame : forall w s c, c < length (circuits w) -> is_call c s = false -> executes (do w s) c = executes w c.
Proof.
  intros w s c L N. unfold executes. apply nth_error_Some in L. destruct (nth_error (circuits w) c) as [k|] eqn:E; [|contradiction].
  rewrite (circuits_frame w s c k N E). reflexivity.
Qed.

Lemma leaves_extend w s : extends (leaves w) (leaves (do w s)).
Proof.
  destruct s as [cl si n|cl i|n|h n|t n cl|t cfg d|c' n|c']; cbn [do with_leaves with_handlers leaves]; try apply extends_refl; try apply extends_app.
  - apply extends_set.
  - unfold make. pose proof (passes_spec (fun _ => []) t) as S. destruct (passes (leaves w) t) as [ls1 t'] eqn:E. cbn [leaves].
    assert (X : extends (leaves w) ls1).
    { clear S. revert ls1 t' E. generalize (leaves w). clear. induction t as [i|ts IH] using tree_ind'; intros ls ls1 t' E.
      - cbn [passes] in E. destruct (nth_error ls i) as [[c k n]|]; [|injection E as <- _; apply extends_refl]. destruct k as [| |j]; try (injection E as <- _; apply extends_refl).
        destruct (nth_error ls j); injection E as <- _; [apply extends_app|apply extends_refl].
      - cbn [passes] in E. injection E as <- _. revert ls. induction IH as [|t ts Ht _ IH]; intros ls; [apply extends_refl|].
        destruct (passes ls t) as [l1 u] eqn:E1. specialize (IH l1).
        destruct ((fix go ls ts := match ts with [] => (ls, []) | t :: r => let (ls1, t') := passes ls t in let (ls2, r') := go ls1 r in (ls2, t' :: r') end) l1 ts) as [l2 r]. cbn [fst] in *.
        eapply extends_trans; [apply (Ht ls l1 u E1)|exact IH]. }
    destruct cfg as [h|]; [|exact X]. eapply extends_trans; [exact X|apply extends_set].
  - unfold apply_noise. destruct n as [h|]; [|apply extends_refl]. destruct (nth_error (circuits w) c'); [|apply extends_refl]. cbn [leaves]. apply extends_set.
Qed.
Lemma range_extend ls ls' t : extends ls ls' -> in_range ls t -> in_range ls' t.
Proof. intros X R i I. specialize (R i I). apply nth_error_Some in R. destruct (nth_error ls i) as [b|] eqn:E; [|contradiction]. destruct (X i b E) as (b' & E' & _). apply nth_error_Some. congruence. Qed.

Definition last_readout (r : option nat) (l : list (list source)) : option nat :=
  fold_left (fun r n => match convert_readout n with Some x => Some x | None => r end) l r.
Lemma history_spec h : forall w c k, nth_error (circuits w) c = Some k -> in_range (leaves w) (c_abstract k) ->
  exists k', nth_error (circuits (history w h)) c = Some k' /\ c_abstract k' = c_abstract k /\ c_readout k' = last_readout (c_readout k) (given c w h) /\
    (given c w h = [] -> k' = k) /\
    (forall l n, given c w h = l ++ [n] -> c_dropout k' = false /\ gates_only (c_program k') = expected (fun _ => digital n) (leaves w) (c_abstract k)).
Proof.
  induction h as [|s h IH]; intros w c k H R.
  - exists k. cbn. split; [exact H|]. split; [reflexivity|]. split; [reflexivity|]. split; [reflexivity|]. intros l n E. destruct l; discriminate E.
  - change (history w (s :: h)) with (history (do w s) h). cbn [given]. destruct (is_call c s) eqn:N.
    + destruct s as [cl si n|cl i|n|hh n|t n cl|t cfg d|c' n|c']; cbn in N; try discriminate N. destruct n as [hh|]; [|discriminate N]. rewrite N. apply Nat.eqb_eq in N. subst c'.
      assert (H1 : nth_error (circuits (do w (Call c (Some hh)))) c = Some {| c_abstract := c_abstract k;
              c_program := convert_block (handlers w) (set_noise (c_abstract k) (Some hh) None (leaves w)) (c_abstract k);
              c_readout := match convert_readout (nth hh (handlers w) []) with Some r => Some r | None => c_readout k end;
              c_dropout := false |}).
      { cbn [do]. unfold apply_noise. rewrite H. cbn [circuits]. apply replace_same. apply nth_error_Some. congruence. }
      destruct (IH _ c _ H1) as (k' & K1 & K2 & K3 & K4 & K5).
      { cbn [c_abstract]. eapply range_extend; [apply (leaves_extend w (Call c (Some hh)))|exact R]. }
      cbn [c_abstract c_readout c_dropout c_program] in *. exists k'. split; [exact K1|]. split; [exact K2|]. split; [exact K3|]. split; [discriminate|].
      intros l n E. destruct l as [|x l].
      * injection E as E1 E2. rewrite (K4 E2). cbn [c_dropout c_program]. split; [reflexivity|]. rewrite convert_block_gates, noisy_gates, E1. reflexivity.
      * injection E as E1 E2. destruct (K5 l n E2) as [A B]. split; [exact A|]. rewrite B. apply expected_extends; [apply (leaves_extend w (Call c (Some hh)))|exact R|reflexivity].
    + assert (G : match s with Call c' (Some n) => if Nat.eqb c' c then [nth n (handlers w) []] else [] | _ => [] end = []).
      { destruct s as [cl si n|cl i|n|hh n|t n cl|t cfg d|c' n|c']; try reflexivity. destruct n as [hh|]; [|reflexivity]. cbn in N. now rewrite N. }
      rewrite G. cbn [app]. destruct (IH (do w s) c k (circuits_frame w s c k N H)) as (k' & K1 & K2 & K3 & K4 & K5).
      { eapply range_extend; [apply leaves_extend|exact R]. }
      exists k'. split; [exact K1|]. split; [exact K2|]. split; [exact K3|]. split; [exact K4|]. intros l n E. destruct (K5 l n E) as [A B]. split; [exact A|].
      rewrite B. apply expected_extends; [apply leaves_extend|exact R|reflexivity].
Qed.

(** What a converted circuit executes after any history: what it was made with if it was never given noise; otherwise all its
    gates carry the digital part of the LAST noise it was given, whatever is passed later, its dropout is gone, and its
    readout noise is the last one it ever got. *)
Theorem C76_history : forall h w c p r d, executes w c = Some (p, r, d) ->
  (forall k, nth_error (circuits w) c = Some k -> in_range (leaves w) (c_abstract k)) ->
  exists p' r' d', executes (history w h) c = Some (p', r', d') /\ r' = last_readout r (given c w h) /\
    (given c w h = [] -> p' = p /\ d' = d) /\
    (forall l n k, given c w h = l ++ [n] -> nth_error (circuits w) c = Some k ->
       d' = false /\ gates_only p' = expected (fun _ => digital n) (leaves w) (c_abstract k)).
Proof.
  intros h w c p r d E R. unfold executes in E. destruct (nth_error (circuits w) c) as [k|] eqn:H; [|discriminate E]. injection E as <- <- <-.
  destruct (history_spec h w c k H (R k eq_refl)) as (k' & K1 & K2 & K3 & K4 & K5).
  exists (c_program k'), (c_readout k'), (c_dropout k'). unfold executes. rewrite K1. split; [reflexivity|]. split; [exact K3|].
  split; [intros G; rewrite (K4 G); split; reflexivity|]. intros l n k0 G E. injection E as <-. apply (K5 l n G).
Qed.

Lemma passes_prefix t : forall ls, prefix ls (fst (passes ls t)).
Proof.
  induction t as [i|ts IH] using tree_ind'; intros ls.
  - cbn [passes]. destruct (nth_error ls i) as [[c k n]|]; [|apply prefix_refl]. destruct k as [| |j]; try apply prefix_refl.
    destruct (nth_error ls j); [eexists; reflexivity|apply prefix_refl].
  - cbn [passes fst]. revert ls. induction IH as [|t ts Ht _ IH]; intros ls; [apply prefix_refl|].
    specialize (Ht ls). destruct (passes ls t) as [l1 u]. specialize (IH l1).
    destruct ((fix go ls ts := match ts with [] => (ls, []) | t :: r => let (ls1, t') := passes ls t in let (ls2, r') := go ls1 r in (ls2, t' :: r') end) l1 ts) as [l2 r]. cbn [fst] in *.
    eapply prefix_trans; eassumption.
Qed.
(** As long as no call passes noise, every gate object keeps the noise it was constructed with (so circuits converted
    without noise have exactly that noise, by C76_make). *)
Theorem C76_quiet : forall h w i b, forallb quiet h = true -> nth_error (leaves w) i = Some b -> nth_error (leaves (history w h)) i = Some b.
Proof.
  induction h as [|s h IH]; intros w i b Q H; [exact H|]. cbn [forallb] in Q. apply andb_true_iff in Q. destruct Q as [Q1 Q2].
  change (history w (s :: h)) with (history (do w s) h). apply IH; [exact Q2|]. clear IH Q2.
  assert (P : prefix (leaves w) (leaves (do w s))).
  { destruct s as [cl si n|cl j|n|hh n|t n cl|t cfg d|c' n|c']; cbn in Q1; try discriminate Q1; cbn [do with_leaves with_handlers leaves]; try apply prefix_refl; try (eexists; reflexivity).
    - destruct cfg; [discriminate Q1|]. unfold make. pose proof (passes_prefix t (leaves w)) as X. destruct (passes (leaves w) t). exact X.
    - destruct n; [discriminate Q1|]. apply prefix_refl. }
  apply (prefix_nth _ _ _ _ P H).
Qed.

(** * Findings *)
(** The world after: a gate of class 0 without noise, and a handler with one digital source. *)
Definition start : list step := [Construct 0 false None; Handler [SDigital 7]].

(** Converting a circuit with noise in the configuration makes the user's own gates noisy: the same block converted
    afterwards WITHOUT noise is executed with noise. *)
Theorem C76_leak_refuted : exists h t, in_range (leaves (history empty h)) t /\
  executes (history empty (h ++ [Make t None false])) 0 = Some ([NGate 0 []], None, false) /\
  executes (history empty (h ++ [Make t (Some 0) false; Make t None false])) 1 = Some ([NGate 0 [7]], None, false).
Proof. exists start, (Leaf 0). split; [intros i [<-|[]]; cbn; lia|]. split; reflexivity. Qed.

(** Passing noise to one sample or expectation call makes all later calls without noise noisy. *)
Theorem C76_sticky_refuted : exists h c, executes (history empty h) c = Some ([NGate 0 []], None, false) /\
  executes (history empty (h ++ [Call c (Some 0); Call c None; Run c])) c = Some ([NGate 0 [7]], None, false).
Proof. exists (start ++ [Make (Leaf 0) None false]), 0. split; reflexivity. Qed.

(** A noise without readout part does not remove the readout noise of an earlier call. *)
Theorem C76_readout_refuted : exists h c n, convert_readout (nth n (handlers (history empty h)) []) = None /\
  executes (history empty h) c = Some ([NGate 0 []], None, false) /\
  executes (history empty (h ++ [Call c (Some 0); Call c (Some n)])) c = Some ([NGate 0 [8]], Some 3, false).
Proof. exists [Construct 0 false None; Handler [SDigital 7; SReadout 3]; Handler [SDigital 8]; Make (Leaf 0) None false], 0, 1. repeat split. Qed.

(** Passing noise removes the dropout of a circuit made with dropout. *)
Theorem C76_dropout_refuted : exists h c, executes (history empty h) c = Some ([NGate 0 []], None, true) /\
  executes (history empty (h ++ [Call c (Some 0)])) c = Some ([NGate 0 [7]], None, false).
Proof. exists (start ++ [Make (Leaf 0) None true]), 0. split; reflexivity. Qed.

(** Noise in the configuration, set_noise and noise in calls never reach a gate inside a scaled block. *)
Theorem C76_scaled_refuted : exists h c, executes (history empty h) c = Some ([NScaled 0 []], None, false) /\
  executes (history empty (h ++ [Call c (Some 0)])) c = Some ([NScaled 0 []], None, false) /\
  In (Make (Leaf 1) (Some 0) false) h /\ In (SetNoise (Leaf 1) (Some 0) None) h.
Proof. exists (start ++ [ScaleIt 1 0; SetNoise (Leaf 1) (Some 0) None; Make (Leaf 1) (Some 0) false]), 0. repeat split; cbn; tauto. Qed.

(** A source appended to a handler does not reach circuits it was given to before, but does reach the next conversion of
    the same gates. *)
Theorem C76_append_refuted : exists h c, executes (history empty h) c = Some ([NGate 0 [7]], None, false) /\
  executes (history empty (h ++ [Append 0 [SDigital 9]; Run c])) c = Some ([NGate 0 [7]], None, false) /\
  executes (history empty (h ++ [Append 0 [SDigital 9]; Make (Leaf 0) None false])) 1 = Some ([NGate 0 [7; 9]], None, false).
Proof. exists (start ++ [Make (Leaf 0) None false; Call 0 (Some 0)]), 0. repeat split. Qed.

(** The hypotheses of the positive theorems hold of a circuit with a gate, a silent block, a scaled gate and a nested block. *)
Definition mixed : list step :=
  [Construct 0 false None; Construct 1 true None; Construct 2 false (Some 0); ScaleIt 3 2; Handler [SDigital 5; SReadout 6]; Handler [SDigital 7; SDigital 8]].
Definition mixed_tree : tree := Comp [Leaf 0; Comp [Leaf 1; Leaf 3]; Leaf 2; Leaf 0].
Example mixed_range : in_range (leaves (history empty mixed)) mixed_tree.
Proof. intros i I. cbn in *. intuition lia. Qed.
Example mixed_runs : executes (history empty (mixed ++ [Make mixed_tree None false])) 0
  = Some ([NGate 0 []; NGate 1 []; NScaled 2 [5]; NGate 2 [5]; NGate 0 []], None, false) /\
  executes (history empty (mixed ++ [Make mixed_tree None true; Call 0 (Some 0); SetNoise (Leaf 0) None None; Call 0 (Some 1); Run 0])) 0
  = Some ([NGate 0 [7; 8]; NGate 1 []; NScaled 2 [5]; NGate 2 [7; 8]; NGate 0 [7; 8]], Some 6, false) /\
  given 0 (history empty (mixed ++ [Make mixed_tree None true])) [Call 0 (Some 0); SetNoise (Leaf 0) None None; Call 0 (Some 1); Run 0]
  = [[SDigital 5; SReadout 6]; [SDigital 7; SDigital 8]].
Proof. repeat split. Qed.

Print Assumptions C76_set_noise.
Print Assumptions C76_make.
Print Assumptions C76_frame.
Print Assumptions C76_history.
Print Assumptions C76_quiet.
Print Assumptions C76_leak_refuted.
Print Assumptions C76_sticky_refuted.
Print Assumptions C76_readout_refuted.
Print Assumptions C76_dropout_refuted.
Print Assumptions C76_scaled_refuted.
Print Assumptions C76_append_refuted.
