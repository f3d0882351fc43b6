(** C29: NoiseHandler objects always satisfy the composition rules. *)
From Coq Require Import String List Arith Bool Lia.
From Verif Require Import M_Noise.
Import ListNotations.
Open Scope string_scope.
Open Scope nat_scope.
Open Scope list_scope.

(** ** Specification: the rules a combination of noises must obey. *)
Record rules (ps : list proto) (os : list opt) : Prop := {
  r_some : ps <> [];
  r_same_length : length ps = length os;
  r_digital_option : forall i p o, nth_error ps i = Some p -> nth_error os i = Some o -> pkind p = Digital -> dget o "error_probability" <> None;
  r_analog_option : forall i p o, nth_error ps i = Some p -> nth_error os i = Some o -> pkind p = Analog -> dget o "noise_probs" <> None;
  r_no_mix : forall p q, In p ps -> In q ps -> pkind p = Digital -> pkind q <> Analog;
  r_one_analog : forall i j p q, nth_error ps i = Some p -> nth_error ps j = Some q -> pkind p = Analog -> pkind q = Analog -> i = j;
  r_analog_alone : forall p q, In p ps -> In q ps -> pkind p = Analog -> pkind q <> Readout;
  r_readout_last : forall i p, nth_error ps i = Some p -> pkind p = Readout -> i = length ps - 1 }.
(** All protocols are members of the enumerations, as their type says. *)
Definition members (ps : list proto) : Prop := forall p, In p ps -> pmember p = true.

Lemma kind_eqb_eq a b : kind_eqb a b = true <-> a = b.
Proof. destruct a, b; simpl; split; congruence. Qed.
Lemma isinst_member ps p k : members ps -> In p ps -> isinst p k = kind_eqb (pkind p) k.
Proof. intros H Hi. unfold isinst. rewrite (H p Hi). reflexivity. Qed.
Lemma isinst_true ps p k : members ps -> In p ps -> isinst p k = true <-> pkind p = k.
Proof. intros H Hi. rewrite (isinst_member ps) by assumption. apply kind_eqb_eq. Qed.
Lemma thas_spec ps k : members ps -> thas k ps = true <-> exists p, In p ps /\ pkind p = k.
Proof.
  intros H. unfold thas. rewrite existsb_exists. split; intros (p & Hi & E); exists p; (split; [exact Hi|]); apply (isinst_true ps); auto.
Qed.
Lemma tcount_le1 ps k : members ps -> (tcount k ps <= 1 <-> forall i j p q, nth_error ps i = Some p -> nth_error ps j = Some q -> pkind p = k -> pkind q = k -> i = j).
Proof.
  intros H. induction ps as [|a ps IH].
  - split; [intros _ [|i] j p q E; discriminate|intros _; unfold tcount; simpl; lia].
  - assert (H' : members ps) by (intros p Hp; apply H; right; exact Hp). specialize (IH H').
    unfold tcount in *. cbn [filter].
    assert (Z : length (filter (fun p => isinst p k) ps) = 0 <-> forall j q, nth_error ps j = Some q -> pkind q <> k).
    { clear IH H. split.
      - intros Z j q E Ek. apply length_zero_iff_nil in Z. apply nth_error_In in E. assert (In q (filter (fun p => isinst p k) ps)) as Hf by (apply filter_In; split; [exact E|apply (isinst_true ps); auto]).
        rewrite Z in Hf. destruct Hf.
      - intros Z. destruct (filter (fun p => isinst p k) ps) as [|b l] eqn:E; [reflexivity|]. exfalso.
        assert (In b (filter (fun p => isinst p k) ps)) as Hf by (rewrite E; left; reflexivity). apply filter_In in Hf as [Hb Hk].
        apply In_nth_error in Hb as (j & Ej). apply (Z j b Ej). apply nth_error_In in Ej. apply (isinst_true ps) in Hk; auto. }
    destruct (isinst a k) eqn:Ea.
    + apply (isinst_true (a :: ps)) in Ea; [|exact H|left; reflexivity]. cbn [length]. split.
      * intros L. assert (Z0 : length (filter (fun p => isinst p k) ps) = 0) by lia. rewrite Z in Z0.
        intros [|i] [|j] p q E1 E2 K1 K2; auto; cbn [nth_error] in *; exfalso; [eapply Z0; eauto|eapply Z0; eauto|eapply (Z0 i); eauto].
      * intros U. assert (length (filter (fun p => isinst p k) ps) = 0); [|lia]. apply Z. intros j q E K.
        specialize (U 0 (S j) a q eq_refl E Ea K). discriminate.
    + assert (Ea' : pkind a <> k) by (intros Hk; apply (isinst_true (a :: ps)) in Hk; [congruence|exact H|left; reflexivity]).
      rewrite IH. split.
      * intros U [|i] [|j] p q E1 E2 K1 K2; auto; cbn [nth_error] in *; try congruence. f_equal. eapply U; eauto.
      * intros U i j p q E1 E2 K1 K2. specialize (U (S i) (S j) p q E1 E2 K1 K2). lia.
Qed.
Lemma last_spec ps k : members ps -> (match rev ps with p :: _ => isinst p k | [] => false end = true <-> exists p, nth_error ps (length ps - 1) = Some p /\ pkind p = k).
Proof.
  intros H. destruct ps as [|a ps] using rev_ind; [simpl; split; [discriminate|intros (p & E & _); discriminate]|]. clear IHps.
  rewrite rev_app_distr, app_length. simpl. replace (length ps + 1 - 1) with (length ps) by lia. rewrite nth_error_app2, Nat.sub_diag by lia. simpl.
  rewrite (isinst_true (ps ++ [a])) by (auto; apply in_or_app; right; left; reflexivity). split; [eauto|intros (p & E & K); injection E as <-; exact K].
Qed.
Lemma forallb_combine ps os : members ps -> length ps = length os -> forallb (fun po => verify_single (fst po) (snd po)) (combine ps os) = true <->
  (forall i p o, nth_error ps i = Some p -> nth_error os i = Some o -> pkind p = Digital -> dget o "error_probability" <> None) /\
  (forall i p o, nth_error ps i = Some p -> nth_error os i = Some o -> pkind p = Analog -> dget o "noise_probs" <> None).
Proof.
  revert os. induction ps as [|a ps IH]; intros [|b os] H L; try discriminate.
  - simpl. split; [intros _; split; intros [|i] p o E; discriminate|reflexivity].
  - cbn [combine forallb fst snd]. rewrite andb_true_iff, IH by (try (intros p Hp; apply H; right; exact Hp); injection L; auto).
    assert (V : verify_single a b = true <-> (pkind a = Digital -> dget b "error_probability" <> None) /\ (pkind a = Analog -> dget b "noise_probs" <> None)).
    { unfold verify_single. rewrite !(isinst_member (a :: ps)) by (auto; left; reflexivity). destruct (pkind a); simpl.
      - destruct (dget b "error_probability"); split; try congruence; [intros _; split; congruence|intros [A _]; exfalso; apply A; auto].
      - destruct (dget b "noise_probs"); split; try congruence; [intros _; split; congruence|intros [_ A]; exfalso; apply A; auto].
      - split; [intros _; split; congruence|reflexivity]. }
    rewrite V. split.
    + intros [[V1 V2] [A B]]. split; intros [|i] p o E1 E2 K; cbn [nth_error] in *; try (injection E1 as <-; injection E2 as <-; auto); eauto.
    + intros [A B]. split; [split; [exact (A 0 a b eq_refl eq_refl)|exact (B 0 a b eq_refl eq_refl)]|]. split; intros i; [exact (A (S i))|exact (B (S i))].
Qed.

(** The verification accepts exactly the combinations that obey the rules. *)
Theorem C29_verify : forall ps os, members ps -> verify_all ps os = true <-> rules ps os.
Proof.
  intros ps os H. unfold verify_all.
  destruct (Nat.eqb_spec (length ps) 0) as [E0|E0]; [split; [discriminate|intros [R _ _ _ _ _ _ _]; exfalso; apply R, length_zero_iff_nil, E0]|].
  destruct (Nat.eqb_spec (length ps) (length os)) as [EL|EL]; cbn [negb]; [|split; [discriminate|intros [_ R _ _ _ _ _ _]; contradiction]].
  pose proof (forallb_combine ps os H EL) as HF.
  destruct (forallb (fun po => verify_single (fst po) (snd po)) (combine ps os)) eqn:EF; cbn [negb];
    [|split; [discriminate|intros [_ _ R1 R2 _ _ _ _]; destruct HF as [_ HF]; discriminate HF; auto]].
  destruct HF as [HF _]. destruct (HF eq_refl) as [F1 F2]. clear HF.
  pose proof (thas_spec ps Digital H) as HD. pose proof (thas_spec ps Analog H) as HA. pose proof (thas_spec ps Readout H) as HR.
  pose proof (tcount_le1 ps Analog H) as CA. pose proof (tcount_le1 ps Readout H) as CR. pose proof (last_spec ps Readout H) as LR.
  assert (Hne : ps <> []) by (intros ->; apply E0; reflexivity).
  split.
  - intros V.
    destruct (thas Digital ps && thas Analog ps) eqn:E1; [discriminate|].
    destruct (thas Analog ps && (thas Readout ps || (1 <? tcount Analog ps))) eqn:E2; [discriminate|].
    destruct (thas Readout ps && (negb match rev ps with [] => false | p :: _ => isinst p Readout end || (1 <? tcount Readout ps))) eqn:E3; [discriminate|].
    clear V. constructor; auto.
    + intros p q Hp Hq Kp Kq. assert (thas Digital ps = true) as T1 by (apply HD; eauto). assert (thas Analog ps = true) as T2 by (apply HA; eauto).
      rewrite T1, T2 in E1. discriminate.
    + intros i j p q Ei Ej Kp Kq. assert (thas Analog ps = true) as T2 by (apply HA; apply nth_error_In in Ei; eauto). rewrite T2 in E2. cbn [andb] in E2.
      apply orb_false_iff in E2 as [_ E2]. apply Nat.ltb_ge in E2. rewrite CA in E2. eapply E2; eauto.
    + intros p q Hp Hq Kp Kq. assert (thas Readout ps = true) as T1 by (apply HR; eauto). assert (thas Analog ps = true) as T2 by (apply HA; eauto).
      rewrite T1, T2 in E2. discriminate.
    + intros i p Ei Kp. assert (thas Readout ps = true) as T2 by (apply HR; apply nth_error_In in Ei; eauto). rewrite T2 in E3. cbn [andb] in E3.
      apply orb_false_iff in E3 as [E3 E4]. apply negb_false_iff in E3. rewrite LR in E3. destruct E3 as (q & Eq & Kq).
      apply Nat.ltb_ge in E4. rewrite CR in E4. eapply E4; eauto.
  - intros [_ _ _ _ R1 R2 R3 R4].
    destruct (thas Digital ps && thas Analog ps) eqn:E1.
    { exfalso. apply andb_true_iff in E1 as [A B]. apply HD in A as (p & Hp & Kp). apply HA in B as (q & Hq & Kq). exact (R1 p q Hp Hq Kp Kq). }
    destruct (thas Analog ps && (thas Readout ps || (1 <? tcount Analog ps))) eqn:E2.
    { exfalso. apply andb_true_iff in E2 as [A B]. apply HA in A as (p & Hp & Kp). apply orb_true_iff in B as [B|B].
      - apply HR in B as (q & Hq & Kq). exact (R3 p q Hp Hq Kp Kq).
      - apply Nat.ltb_lt in B. assert (tcount Analog ps <= 1); [|lia]. apply CA. exact R2. }
    destruct (thas Readout ps && (negb match rev ps with [] => false | p :: _ => isinst p Readout end || (1 <? tcount Readout ps))) eqn:E3; [|reflexivity].
    exfalso. apply andb_true_iff in E3 as [A B]. apply HR in A as (p & Hp & Kp). apply In_nth_error in Hp as (i & Ei). pose proof (R4 i p Ei Kp) as Hi. apply orb_true_iff in B as [B|B].
    + apply negb_true_iff in B. assert (exists q, nth_error ps (length ps - 1) = Some q /\ pkind q = Readout) as X by (exists p; subst i; auto). apply LR in X. congruence.
    + apply Nat.ltb_lt in B. assert (tcount Readout ps <= 1); [|lia]. apply CR. intros j k q r Ej Ek Kq Kr. rewrite (R4 j q Ej Kq), (R4 k r Ek Kr). reflexivity.
Qed.

(** ** Histories *)
Definition mutation (a : op) : bool := match a with MutateP _ _ | MutateO _ _ => true | _ => false end.
(** Every protocol a caller passes is an enumeration member. *)
Definition op_members (a : op) : Prop :=
  match a with NewPList l => members l | Init (inl p) _ | Builder _ p _ => pmember p = true | MutateP _ l => members l | _ => True end.

Definition hinv (s : state) (h : nat * nat) : Prop := verify_all (pl s (fst h)) (ol s (snd h)) = true.
Definition inv (s : state) : Prop := (forall l, In l (plists s) -> members l) /\ (forall h, In h (handlers s) -> hinv s h).

(** [s'] keeps the lists of [s] (only new lists were allocated). *)
Definition extends (s s' : state) : Prop := (exists e, plists s' = plists s ++ e) /\ (exists e, olists s' = olists s ++ e).
Lemma extends_refl s : extends s s. Proof. split; exists []; rewrite app_nil_r; reflexivity. Qed.
Lemma extends_trans a b c : extends a b -> extends b c -> extends a c.
Proof. intros [[e1 E1] [f1 F1]] [[e2 E2] [f2 F2]]. split; [exists (e1 ++ e2); rewrite E2, E1, app_assoc; reflexivity|exists (f1 ++ f2); rewrite F2, F1, app_assoc; reflexivity]. Qed.
Lemma verify_nonempty ps os : verify_all ps os = true -> ps <> [] /\ os <> [].
Proof.
  unfold verify_all. destruct ps as [|p ps]; [discriminate|]. cbn [length Nat.eqb]. destruct os as [|o os]; [discriminate|]. split; discriminate.
Qed.
Lemma pl_extends s s' r : extends s s' -> pl s r <> [] -> pl s' r = pl s r.
Proof. intros [[e E] _] H. unfold pl in *. rewrite E. destruct (le_lt_dec (length (plists s)) r); [rewrite nth_overflow in H by assumption; congruence|apply app_nth1; assumption]. Qed.
Lemma ol_extends s s' r : extends s s' -> ol s r <> [] -> ol s' r = ol s r.
Proof. intros [_ [e E]] H. unfold ol in *. rewrite E. destruct (le_lt_dec (length (olists s)) r); [rewrite nth_overflow in H by assumption; congruence|apply app_nth1; assumption]. Qed.
Lemma hinv_extends s s' h : extends s s' -> hinv s h -> hinv s' h /\ pl s' (fst h) = pl s (fst h) /\ ol s' (snd h) = ol s (snd h).
Proof. intros E H. unfold hinv in *. destruct (verify_nonempty _ _ H) as [N1 N2]. rewrite (pl_extends s s'), (ol_extends s s') by assumption. auto. Qed.
Lemma pl_members s r : inv s -> members (pl s r).
Proof.
  intros [H _]. unfold pl. destruct (nth_in_or_default r (plists s) []) as [Hi| ->]; [apply H, Hi|intros p []].
Qed.

Lemma new_pl_spec s l : extends s (fst (new_pl s l)) /\ pl (fst (new_pl s l)) (snd (new_pl s l)) = l /\ handlers (fst (new_pl s l)) = handlers s /\ plists (fst (new_pl s l)) = plists s ++ [l] .
Proof.
  repeat split; simpl; eauto.
  - exists []. rewrite app_nil_r. reflexivity.
  - unfold pl. simpl. rewrite app_nth2, Nat.sub_diag by lia. reflexivity.
Qed.
Lemma new_ol_spec s l : extends s (fst (new_ol s l)) /\ ol (fst (new_ol s l)) (snd (new_ol s l)) = l /\ handlers (fst (new_ol s l)) = handlers s /\ plists (fst (new_ol s l)) = plists s.
Proof.
  repeat split; simpl; eauto.
  - exists []. rewrite app_nil_r. reflexivity.
  - unfold ol. simpl. rewrite app_nth2, Nat.sub_diag by lia. reflexivity.
Qed.

(** Constructor: lists kept or wrapped. *)
Definition given_p (s : state) (p : proto + nat) : list proto := match p with inl p => [p] | inr r => pl s r end.
Definition given_o (s : state) (p : proto + nat) (o : opt + nat) : list opt := match o with inl o => repeat o (length (given_p s p)) | inr r => ol s r end.
Lemma init_spec s p o : forall s1 refs ok, init s p o = (s1, refs, ok) ->
  extends s s1 /\ handlers s1 = handlers s /\ ok = verify_all (pl s1 (fst refs)) (ol s1 (snd refs)) /\
  ok = verify_all (given_p s p) (given_o s p o) /\
  (ok = true -> pl s1 (fst refs) = given_p s p /\ ol s1 (snd refs) = given_o s p o) /\
  (match p with inl p => plists s1 = plists s ++ [[p]] | inr _ => plists s1 = plists s end).
Proof.
  intros s1 refs ok E. destruct p as [p|r], o as [o|r']; simpl in E; injection E as <- <- <-; simpl; unfold pl, ol; simpl.
  all: assert (A1 : forall (l : list (list proto)) x, nth (length l) (l ++ [x]) [] = x) by (intros; rewrite app_nth2, Nat.sub_diag by lia; reflexivity).
  all: assert (A2 : forall (l : list (list opt)) x, nth (length l) (l ++ [x]) [] = x) by (intros; rewrite app_nth2, Nat.sub_diag by lia; reflexivity).
  all: rewrite ?A1; simpl; rewrite ?A2; simpl; repeat split; intros; rewrite ?A1; simpl; rewrite ?A2; simpl; auto; try (eexists; reflexivity); exists []; rewrite app_nil_r; reflexivity.
Qed.

Lemma set_nth_in {A} n (x y : A) l : In y (set_nth n x l) -> y = x \/ In y l.
Proof. revert n. induction l as [|z l IH]; intros [|n]; simpl; [tauto|tauto|intros [<-|H]; auto|]. intros [<-|H]; auto. apply IH in H as [->|H]; auto. Qed.
Lemma set_nth_nth {A} n (x : A) l i d : nth i (set_nth n x l) d = if Nat.eqb i n && Nat.ltb n (length l) then x else nth i l d.
Proof.
  revert n i. induction l as [|z l IH]; intros [|n] [|i]; simpl; try reflexivity.
  - rewrite andb_false_r. reflexivity.
  - rewrite IH. reflexivity.
Qed.
Lemma set_nth_length {A} n (x : A) l : length (set_nth n x l) = length l.
Proof. revert n. induction l as [|z l IH]; intros [|n]; simpl; auto. Qed.

Lemma append_spec s h others s' ok : append s h others = (s', ok) ->
  let ps := protocols_of s h ++ flat_map (fun r => pl s (fst r)) others in
  let os := options_of s h ++ flat_map (fun r => ol s (snd r)) others in
  ok = verify_all ps os /\
  exists s1 refs, extends s s1 /\ handlers s1 = handlers s /\ plists s1 = plists s ++ [ps] /\ pl s1 (fst refs) = ps /\ ol s1 (snd refs) = os /\
    s' = if ok then set_handler s1 h refs else s1.
Proof.
  intros E ps os. unfold append in E. fold ps os in E. cbn [new_pl new_ol fst snd init] in E.
  set (s1 := {| plists := plists s ++ [ps]; olists := olists s ++ [os]; handlers := handlers s |}) in *.
  simpl in E. fold s1 in E.
  assert (P : pl s1 (length (plists s)) = ps) by (unfold pl, s1; simpl; rewrite app_nth2, Nat.sub_diag by lia; reflexivity).
  assert (O : ol s1 (length (olists s)) = os) by (unfold ol, s1; simpl; rewrite app_nth2, Nat.sub_diag by lia; reflexivity).
  rewrite P, O in E. split.
  - destruct (verify_all ps os); injection E; auto.
  - exists s1, (length (plists s), length (olists s)). split; [split; [exists [ps]|exists [os]]; reflexivity|]. split; [reflexivity|]. split; [reflexivity|]. split; [exact P|]. split; [exact O|].
    destruct (verify_all ps os); injection E as <- <-; reflexivity.
Qed.

Lemma inv_extends s s1 : inv s -> extends s s1 -> handlers s1 = handlers s -> (forall l, In l (plists s1) -> members l) -> inv s1.
Proof.
  intros [_ I] E Eh M. split; [exact M|]. rewrite Eh. intros h Hh. destruct (hinv_extends s s1 h E (I h Hh)) as (H & _). exact H.
Qed.
Lemma inv_add s h : inv s -> hinv s h -> inv (add_handler s h).
Proof.
  intros [M I] H. split; [exact M|]. simpl. intros h' Hh'. apply in_app_or in Hh' as [Hh'|[<-|[]]]; [apply I, Hh'|exact H].
Qed.
Lemma inv_set s i h : inv s -> hinv s h -> inv (set_handler s i h).
Proof.
  intros [M I] H. split; [exact M|]. simpl. intros h' Hh'. apply set_nth_in in Hh' as [-> | Hh']; [exact H|apply I, Hh'].
Qed.
Lemma members_app a b : members a -> members b -> members (a ++ b).
Proof. intros A B p Hp. apply in_app_or in Hp as [|]; auto. Qed.
Lemma plists_app_members s ls : inv s -> (forall l, In l ls -> members l) -> forall l, In l (plists s ++ ls) -> members l.
Proof. intros [M _] H l Hl. apply in_app_or in Hl as [|]; auto. Qed.
Lemma members_flat {A} (f : A -> list proto) l : (forall x, members (f x)) -> members (flat_map f l).
Proof. intros H p Hp. apply in_flat_map in Hp as (x & _ & Hp). exact (H x p Hp). Qed.

Lemma append_inv s h others s' ok : inv s -> append s h others = (s', ok) -> inv s'.
Proof.
  intros I E. apply append_spec in E. simpl in E. destruct E as (Eok & s1 & refs & Ex & Eh & Ep & P & O & ->).
  assert (I1 : inv s1).
  { apply (inv_extends s); auto. rewrite Ep. apply plists_app_members; [exact I|]. intros l [<-|[]]. apply members_app; [apply pl_members, I|apply members_flat; intros; apply pl_members, I]. }
  destruct ok; [|exact I1]. apply inv_set; [exact I1|]. unfold hinv. rewrite P, O, <- Eok. reflexivity.
Qed.
Lemma init_inv s p o s1 refs ok : inv s -> (match p with inl p => pmember p = true | inr _ => True end) -> init s p o = (s1, refs, ok) -> inv s1 /\ (ok = true -> hinv s1 refs).
Proof.
  intros I Hp E. apply init_spec in E as (Ex & Eh & E1 & E2 & E3 & E4). split.
  - apply (inv_extends s); auto. destruct p as [p|r]; rewrite E4; [|apply I]. apply plists_app_members; [exact I|]. intros l [<-|[]] q [<-|[]]. exact Hp.
  - intros ->. unfold hinv. auto.
Qed.

Lemma in_compress {A} (x : A) l sel : In x (compress l sel) -> In x l.
Proof.
  unfold compress. intros H. apply in_map_iff in H as ([y b] & <- & H). apply filter_In in H as [H _]. apply in_combine_l in H. exact H.
Qed.

Lemma step_inv s a : inv s -> mutation a = false -> op_members a -> inv (fst (step s a)).
Proof.
  intros I Hm Ho. destruct a as [l|l|p o|h others|h p o|h k|h|r l|r l]; try discriminate; cbn [step].
  - apply (inv_extends s); auto; [apply new_pl_spec|]. apply plists_app_members; [exact I|]. intros l' [<-|[]]. exact Ho.
  - apply (inv_extends s); auto; [apply new_ol_spec|apply I].
  - destruct (init s p o) as [[s1 refs] ok] eqn:E. destruct (init_inv _ _ _ _ _ _ I Ho E) as [I1 H1]. destruct ok; [apply inv_add; auto|exact I1].
  - destruct (h <? length (handlers s)); [|exact I]. destruct (append s h _) as [s' ok] eqn:E. exact (append_inv _ _ _ _ _ I E).
  - destruct (h <? length (handlers s)); [|exact I]. destruct (init s (inl p) o) as [[s1 refs] ok] eqn:E. destruct (init_inv _ (inl p) _ _ _ _ I Ho E) as [I1 H1].
    destruct ok; [|exact I1]. destruct (append s1 h [refs]) as [s' ok'] eqn:E'. exact (append_inv _ _ _ _ _ I1 E').
  - unfold filter_h. destruct (existsb _ _); [|exact I].
    destruct (new_pl s (compress (protocols_of s h) (map (fun p => isinst p k) (protocols_of s h)))) as [s1 pr] eqn:E1.
    destruct (new_ol s1 (compress (options_of s h) (map (fun p => isinst p k) (protocols_of s h)))) as [s2 or] eqn:E2.
    destruct (init s2 (inr pr) (inr or)) as [[s3 refs] ok] eqn:E3.
    assert (I1 : inv s1).
    { pose proof (new_pl_spec s (compress (protocols_of s h) (map (fun p => isinst p k) (protocols_of s h)))) as (A & _ & B & C). rewrite E1 in *. simpl in *.
      apply (inv_extends s); auto. rewrite C. apply plists_app_members; [exact I|]. intros l [<-|[]] p Hp. apply in_compress in Hp. exact (pl_members _ _ I p Hp). }
    assert (I2 : inv s2).
    { pose proof (new_ol_spec s1 (compress (options_of s h) (map (fun p => isinst p k) (protocols_of s h)))) as (A & _ & B & C). rewrite E2 in *. simpl in *.
      apply (inv_extends s1); auto. rewrite C. apply I1. }
    assert (Hm0 : match (@inr proto nat pr) with inl p => pmember p = true | inr _ => True end) by exact Logic.I.
    destruct (init_inv _ (inr pr) _ _ _ _ I2 Hm0 E3) as [I3 H3]. destruct ok; [apply inv_add; auto|exact I3].
  - unfold from_dict. destruct (to_dict s h) as [p o]. destruct (pl s p); [exact I|]. destruct (init s (inr p) (inr o)) as [[s3 refs] ok] eqn:E3.
    assert (Hm0 : match (@inr proto nat p) with inl p => pmember p = true | inr _ => True end) by exact Logic.I.
    destruct (init_inv _ (inr p) _ _ _ _ I Hm0 E3) as [I3 H3]. destruct ok; [apply inv_add; auto|exact I3].
Qed.

(** After any history of calls (failing ones included) that does not change a list behind a handler's back,
    every handler obeys the rules. *)
Theorem C29_invariant : forall ops, (forall a, In a ops -> mutation a = false /\ op_members a) ->
  forall h, h < length (handlers (run empty_state ops)) ->
  rules (protocols_of (run empty_state ops) h) (options_of (run empty_state ops) h).
Proof.
  intros ops Hops.
  assert (G : forall ops s, inv s -> (forall a, In a ops -> mutation a = false /\ op_members a) -> inv (run s ops)).
  { clear. induction ops as [|a ops IH]; intros s I H; [exact I|]. cbn [run]. apply IH; [|intros; apply H; right; assumption].
    destruct (H a (or_introl eq_refl)). apply step_inv; auto. }
  assert (I : inv (run empty_state ops)) by (apply G; [split; intros x []|exact Hops]).
  intros h Hh. unfold protocols_of, options_of. apply C29_verify; [apply pl_members, I|]. apply I. apply nth_In. exact Hh.
Qed.

(** A call only ever changes the handler it is invoked on, and a call that raises changes no handler. *)
Theorem C29_atomic : forall s a, (forall h, In h (handlers s) -> hinv s h) -> mutation a = false ->
  forall h, h < length (handlers s) ->
  (snd (step s a) = false \/ (forall others, a <> Append h others) /\ (forall p o, a <> Builder h p o)) ->
  h < length (handlers (fst (step s a))) /\
  protocols_of (fst (step s a)) h = protocols_of s h /\ options_of (fst (step s a)) h = options_of s h.
Proof.
  intros s a I Hm h Hh Ha.
  assert (KX : forall s', extends s s' -> (exists e, handlers s' = handlers s ++ e) -> h < length (handlers s') /\ protocols_of s' h = protocols_of s h /\ options_of s' h = options_of s h).
  { intros s' Ex (e & Eh). unfold protocols_of, options_of. rewrite Eh, app_length, app_nth1 by assumption. split; [lia|].
    destruct (hinv_extends s s' (nth h (handlers s) (0, 0)) Ex) as (_ & A & B); [apply I, nth_In, Hh|]. auto. }
  assert (KS : forall s', extends s s' -> handlers s' = handlers s -> h < length (handlers s') /\ protocols_of s' h = protocols_of s h /\ options_of s' h = options_of s h).
  { intros s' Ex Eh. apply KX; [exact Ex|]. exists []. rewrite app_nil_r. exact Eh. }
  assert (KA : forall h' others s0, extends s s0 -> handlers s0 = handlers s ->
     (snd (append s0 h' others) = false \/ h' <> h) ->
     h < length (handlers (fst (append s0 h' others))) /\ protocols_of (fst (append s0 h' others)) h = protocols_of s h /\ options_of (fst (append s0 h' others)) h = options_of s h).
  { intros h' others s0 Ex0 Eh0 Hc. destruct (append s0 h' others) as [s' ok] eqn:E. apply append_spec in E. simpl in E.
    destruct E as (_ & s1 & refs & Ex & Eh & _ & _ & _ & ->). simpl in Hc. cbn [fst].
    pose proof (extends_trans _ _ _ Ex0 Ex) as Ex'. rewrite Eh0 in Eh. pose proof (KS s1 Ex' Eh) as K.
    destruct ok; [|exact K]. destruct Hc as [Hc|Hc]; [discriminate|]. destruct K as (K1 & K2 & K3).
    unfold protocols_of, options_of, pl, ol in *. simpl. rewrite set_nth_length, set_nth_nth.
    replace (Nat.eqb h h') with false by (symmetry; apply Nat.eqb_neq; congruence). simpl. auto. }
  destruct a as [l|l|p o|h' others|h' p o|h' k|h'|r l|r l]; try discriminate; cbn [step] in *.
  - apply KS; [apply new_pl_spec|reflexivity].
  - apply KS; [apply new_ol_spec|reflexivity].
  - destruct (init s p o) as [[s1 refs] ok] eqn:E. apply init_spec in E as (Ex & Eh & _). destruct ok; [apply KX|apply KS]; auto.
    simpl. rewrite Eh. eauto.
  - destruct (h' <? length (handlers s)) eqn:El; [|apply KS; [apply extends_refl|reflexivity]]. apply KA; [apply extends_refl|reflexivity|].
    destruct Ha as [Ha|[Ha _]]; [left; exact Ha|right; intros ->; exact (Ha others eq_refl)].
  - destruct (h' <? length (handlers s)) eqn:El; [|apply KS; [apply extends_refl|reflexivity]].
    destruct (init s (inl p) o) as [[s1 refs] ok] eqn:E. apply init_spec in E as (Ex & Eh & _). destruct ok; [|apply KS; assumption].
    apply KA; [exact Ex|exact Eh|]. destruct Ha as [Ha|[_ Ha]]; [left; exact Ha|right; intros ->; exact (Ha p o eq_refl)].
  - clear Ha. unfold filter_h. destruct (existsb _ _); [|apply KS; [apply extends_refl|reflexivity]].
    set (cp := compress (protocols_of s h') _). set (co := compress (options_of s h') _).
    destruct (new_pl s cp) as [s1 pr] eqn:E1. destruct (new_ol s1 co) as [s2 or] eqn:E2. destruct (init s2 (inr pr) (inr or)) as [[s3 refs] ok] eqn:E3.
    pose proof (new_pl_spec s cp) as (A1 & _ & B1 & _). pose proof (new_ol_spec s1 co) as (A2 & _ & B2 & _). apply init_spec in E3 as (A3 & B3 & _).
    rewrite E1 in *. rewrite E2 in *. simpl in *. assert (Ex : extends s s3) by (eapply extends_trans; [exact A1|eapply extends_trans; eassumption]).
    assert (Eh : handlers s3 = handlers s) by congruence. destruct ok; [apply KX|apply KS]; auto. simpl. rewrite Eh. eauto.
  - clear Ha. unfold from_dict. destruct (to_dict s h') as [p o]. destruct (pl s p); [apply KS; [apply extends_refl|reflexivity]|].
    destruct (init s (inr p) (inr o)) as [[s3 refs] ok] eqn:E3. apply init_spec in E3 as (A3 & B3 & _).
    destruct ok; [apply KX|apply KS]; auto. simpl. rewrite B3. eauto.
Qed.

(** A successful append concatenates, in order; it succeeds exactly when the result obeys the rules. *)
Theorem C29_append : forall s h others, h < length (handlers s) ->
  let ps := protocols_of s h ++ flat_map (protocols_of s) others in
  let os := options_of s h ++ flat_map (options_of s) others in
  members ps ->
  (snd (step s (Append h others)) = true <-> rules ps os) /\
  (snd (step s (Append h others)) = true ->
     protocols_of (fst (step s (Append h others))) h = ps /\ options_of (fst (step s (Append h others))) h = os).
Proof.
  intros s h others Hh ps os Hmem. cbn [step]. replace (h <? length (handlers s)) with true by (symmetry; apply Nat.ltb_lt, Hh).
  destruct (append s h (map (fun i => nth i (handlers s) (0, 0)) others)) as [s' ok] eqn:E. apply append_spec in E. simpl in E.
  assert (P : protocols_of s h ++ flat_map (fun r => pl s (fst r)) (map (fun i => nth i (handlers s) (0, 0)) others) = ps).
  { unfold ps. f_equal. rewrite flat_map_concat_map, map_map, flat_map_concat_map. reflexivity. }
  assert (O : options_of s h ++ flat_map (fun r => ol s (snd r)) (map (fun i => nth i (handlers s) (0, 0)) others) = os).
  { unfold os. f_equal. rewrite flat_map_concat_map, map_map, flat_map_concat_map. reflexivity. }
  rewrite P, O in E. destruct E as (-> & s1 & refs & Ex & Eh & _ & P1 & O1 & ->). cbn [fst snd]. split; [apply C29_verify, Hmem|].
  intros ->. unfold protocols_of, options_of in *. simpl. rewrite set_nth_nth, Nat.eqb_refl, Eh.
  replace (h <? length (handlers s)) with true by (symmetry; apply Nat.ltb_lt, Hh). simpl. auto.
Qed.

(** Filtering a handler selects the matching protocols with their options; the result is again a legal handler. *)
Theorem C29_filter : forall s h k, members (protocols_of s h) -> rules (protocols_of s h) (options_of s h) ->
  (exists p, In p (protocols_of s h) /\ pkind p = k) ->
  exists s' refs, filter_h s h k = (s', Some (refs, true)) /\
    combine (pl s' (fst refs)) (ol s' (snd refs)) = filter (fun po => kind_eqb (pkind (fst po)) k) (combine (protocols_of s h) (options_of s h)).
Proof.
  intros s h k Hm R Hex. set (ps := protocols_of s h) in *. set (os := options_of s h) in *.
  unfold filter_h. fold ps os. clearbody ps os.
  replace (existsb (fun b => b) (map (fun p => isinst p k) ps)) with true.
  2:{ symmetry. apply existsb_exists. exists true. split; [|reflexivity]. apply in_map_iff. destruct Hex as (p & Hp & Kp). exists p. split; [apply (isinst_true ps); auto|exact Hp]. }
  set (cp := compress ps (map (fun p => isinst p k) ps)). set (co := compress os (map (fun p => isinst p k) ps)).
  assert (Ecp : cp = filter (fun p => kind_eqb (pkind p) k) ps).
  { unfold cp, compress. clear -Hm. induction ps as [|p ps IH]; [reflexivity|]. simpl. rewrite (isinst_member (p :: ps)) by (auto; left; reflexivity).
    destruct (kind_eqb (pkind p) k); simpl; rewrite IH; auto; intros q Hq; apply Hm; right; exact Hq. }
  assert (Eco : combine cp co = filter (fun po => kind_eqb (pkind (fst po)) k) (combine ps os) /\ length co = length cp).
  { unfold cp, co, compress. pose proof (r_same_length _ _ R) as L. clear -Hm L. revert os L. induction ps as [|p ps IH]; intros [|o os] L; try discriminate; [split; reflexivity|]. simpl.
    rewrite (isinst_member (p :: ps)) by (auto; left; reflexivity). destruct (IH (fun q Hq => Hm q (or_intror Hq)) os) as [A B]; [injection L; auto|].
    destruct (kind_eqb (pkind p) k); simpl; split; try (rewrite A; reflexivity); try exact A; try exact B. f_equal. exact B. }
  destruct Eco as [Eco Elen].
  cbn [new_pl new_ol init fst snd].
  set (s2 := {| plists := plists s ++ [cp]; olists := olists s ++ [co]; handlers := handlers s |}).
  change (exists s' refs, (s2, Some ((length (plists s), length (olists s)), verify_all (pl s2 (length (plists s))) (ol s2 (length (olists s))))) = (s', Some (refs, true)) /\
     combine (pl s' (fst refs)) (ol s' (snd refs)) = filter (fun po => kind_eqb (pkind (fst po)) k) (combine ps os)).
  assert (P : pl s2 (length (plists s)) = cp) by (unfold pl, s2; simpl; rewrite app_nth2, Nat.sub_diag by lia; reflexivity).
  assert (O : ol s2 (length (olists s)) = co) by (unfold ol, s2; simpl; rewrite app_nth2, Nat.sub_diag by lia; reflexivity).
  exists s2, (length (plists s), length (olists s)). cbn [fst snd]. rewrite P, O, Eco. split; [|reflexivity].
  do 3 f_equal. apply C29_verify.
  { intros p Hp. apply Hm. rewrite Ecp in Hp. apply filter_In in Hp as [Hp _]. exact Hp. }
  assert (HK : forall p, In p cp -> In p ps /\ pkind p = k).
  { intros p Hp. rewrite Ecp in Hp. apply filter_In in Hp as [Hp E]. apply kind_eqb_eq in E. auto. }
  assert (HPO : forall i p o, nth_error cp i = Some p -> nth_error co i = Some o -> exists j, nth_error ps j = Some p /\ nth_error os j = Some o).
  { intros i p o E1 E2. assert (nth_error (combine cp co) i = Some (p, o)) as E.
    { clearbody cp co. clear -E1 E2. revert i co E1 E2. induction cp as [|a cp IH]; intros [|i] [|b co] E1 E2; try discriminate; simpl in *; [congruence|eauto]. }
    rewrite Eco in E. apply nth_error_In, filter_In in E as [E _]. clear -E. revert os E. induction ps as [|a ps IH]; intros [|b os] E; [destruct E|destruct E|destruct E|destruct E as [E|E]].
    - exists 0. split; simpl; congruence.
    - destruct (IH os E) as (j & A & B). exists (S j). auto. }
  destruct R as [R0 RL R1 R2 R3 R4 R5 R6].
  assert (One : k <> Digital -> length cp <= 1).
  { intros Hk. clearbody cp. destruct cp as [|a [|b cp']] eqn:Ec; simpl; try lia. exfalso.
    assert (C : tcount k ps <= 1).
    { apply tcount_le1; [exact Hm|]. intros i j p q Ei Ej Kp Kq. destruct k; [congruence|eapply R4; eauto|]. rewrite (R6 i p Ei Kp), (R6 j q Ej Kq). reflexivity. }
    assert (tcount k ps = length cp).
    { rewrite Ec, Ecp. unfold tcount. f_equal. apply filter_ext_in. intros p Hp. apply (isinst_member ps); auto. }
    rewrite Ec in H. simpl in H. lia. }
  constructor.
  - destruct Hex as (p & Hp & Kp). intros E. rewrite Ecp in E. assert (In p []) as []. rewrite <- E. apply filter_In. split; [exact Hp|]. apply kind_eqb_eq, Kp.
  - symmetry. exact Elen.
  - intros i p o E1 E2 K. destruct (HPO i p o E1 E2) as (j & A & B). eapply R1; eauto.
  - intros i p o E1 E2 K. destruct (HPO i p o E1 E2) as (j & A & B). eapply R2; eauto.
  - intros p q Hp Hq K. apply (R3 p q); auto; apply HK; auto.
  - intros i j p q Ei Ej Kp Kq. assert (length cp <= 1).
    { apply One. apply nth_error_In, HK in Ei as [_ <-]. congruence. }
    assert (i < length cp) by (apply nth_error_Some; congruence). assert (j < length cp) by (apply nth_error_Some; congruence). lia.
  - intros p q Hp Hq K. apply (R5 p q); auto; apply HK; auto.
  - intros i p Ei Kp. assert (length cp <= 1).
    { apply One. apply nth_error_In, HK in Ei as [_ <-]. congruence. }
    assert (i < length cp) by (apply nth_error_Some; congruence). lia.
Qed.

(** The dictionary form gives back a handler with the same protocols and options. *)
Theorem C29_round_trip : forall s h, h < length (handlers s) -> rules (protocols_of s h) (options_of s h) -> members (protocols_of s h) ->
  exists s' refs, from_dict s (Some (to_dict s h)) = Some (s', refs, true) /\ pl s' (fst refs) = protocols_of s h /\ ol s' (snd refs) = options_of s h.
Proof.
  intros s h Hh R Hm. unfold from_dict, to_dict, protocols_of, options_of in *. destruct (nth h (handlers s) (0, 0)) as [p o]. simpl in *.
  apply C29_verify in R; [|exact Hm]. destruct (verify_nonempty _ _ R) as [N _]. destruct (pl s p) as [|a l] eqn:E; [congruence|].
  exists s, (p, o). unfold init. cbn [fst snd]. rewrite E, R. auto.
Qed.

(** Equality of handlers of the same length is equality of protocols and options ... *)
Theorem C29_eq_same_length : forall ps1 os1 ps2 os2, length ps1 = length ps2 -> length os1 = length os2 ->
  eq_h ps1 os1 ps2 os2 = true <-> ps1 = ps2 /\ os1 = os2.
Proof.
  assert (G : forall A (eqb : A -> A -> bool), (forall a b, eqb a b = true <-> a = b) -> forall l1 l2, length l1 = length l2 ->
     forallb (fun pq => eqb (fst pq) (snd pq)) (combine l1 l2) = true <-> l1 = l2).
  { intros A eqb He. induction l1 as [|a l1 IH]; intros [|b l2] L; try discriminate; [simpl; tauto|]. simpl. rewrite andb_true_iff, He, IH by (injection L; auto).
    split; [intros [-> ->]; reflexivity|intros E; injection E; auto]. }
  intros ps1 os1 ps2 os2 L1 L2. unfold eq_h. rewrite andb_true_iff, (G _ proto_eqb), (G _ opt_eqb); auto; [tauto| |].
  - intros a b. unfold opt_eqb. destruct (opt_eq_dec a b); split; congruence.
  - intros [k m i] [k' m' i']. unfold proto_eqb. simpl. rewrite !andb_true_iff, kind_eqb_eq, eqb_true_iff, Nat.eqb_eq. split; [intros [[-> ->] ->]; reflexivity|intros E; injection E; auto].
Qed.
(** ... but a handler is equal to any extension of it. *)
Definition bitflip := {| pkind := Digital; pmember := true; pid := 0 |}.
Definition readout := {| pkind := Readout; pmember := true; pid := 1 |}.
Definition depol := {| pkind := Digital; pmember := true; pid := 2 |}.
Definition dephasing := {| pkind := Analog; pmember := true; pid := 3 |}.
Definition readout_class := {| pkind := Readout; pmember := false; pid := 0 |}.
Definition err : opt := [("error_probability", Some 1)].
Theorem C29_eq_refuted : exists ps1 os1 ps2 os2, rules ps1 os1 /\ rules ps2 os2 /\ eq_h ps1 os1 ps2 os2 = true /\ ps1 <> ps2.
Proof.
  exists [bitflip], [err], [bitflip; readout], [err; err].
  split; [apply C29_verify; [intros p [<-|[]]; reflexivity|reflexivity]|].
  split; [apply C29_verify; [intros p [<-|[<-|[]]]; reflexivity|reflexivity]|]. split; [reflexivity|discriminate].
Qed.
(** The lists given to the constructor are kept by reference: changing such a list afterwards breaks the rules. *)
Theorem C29_shared_list_refuted : exists ops, (forall a, In a ops -> op_members a) /\ 0 < length (handlers (run empty_state ops)) /\
  ~ rules (protocols_of (run empty_state ops) 0) (options_of (run empty_state ops) 0).
Proof.
  exists [NewPList [bitflip]; NewOList [err]; Init (inr 0) (inr 0); MutateP 0 [bitflip; depol]]. split.
  - intros a [<-|[<-|[<-|[<-|[]]]]]; simpl; auto; intros p Hp; repeat destruct Hp as [<-|Hp]; try reflexivity; destruct Hp.
  - split; [simpl; lia|]. intros R. apply r_same_length in R. discriminate.
Qed.
(** The enumeration class itself, as used in the class documentation, is not recognised as a readout noise. *)
Theorem C29_class_object_refuted : exists ps os, verify_all ps os = true /\ exists i p, nth_error ps i = Some p /\ pkind p = Readout /\ i <> length ps - 1.
Proof. exists [readout_class; bitflip], [err; err]. split; [reflexivity|]. exists 0, readout_class. split; [reflexivity|]. split; [reflexivity|]. simpl. lia. Qed.

(** A history with a successful and two failing extensions. *)
Example C29_witness : let s := run empty_state [Init (inl bitflip) (inl err); Init (inl dephasing) (inl [("noise_probs", Some 1)]);
    Append 0 [1]; Builder 0 readout (inl []); Builder 0 depol (inl err); Filter 0 Digital] in
  protocols_of s 0 = [bitflip; readout] /\ options_of s 0 = [err; []] /\ protocols_of s 1 = [dephasing] /\ protocols_of s 2 = [bitflip] /\ length (handlers s) = 3.
Proof. repeat split. Qed.

Print Assumptions C29_verify.
Print Assumptions C29_invariant.
Print Assumptions C29_atomic.
Print Assumptions C29_append.
Print Assumptions C29_filter.
Print Assumptions C29_round_trip.
Print Assumptions C29_eq_same_length.
Print Assumptions C29_eq_refuted.
Print Assumptions C29_shared_list_refuted.
Print Assumptions C29_class_object_refuted.
