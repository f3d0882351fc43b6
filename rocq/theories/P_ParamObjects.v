(** C74: parameter objects. *)
From Coq Require Import String Reals List Arith Bool Lia Lra FinFun.
From Coquelicot Require Import Coquelicot.
From Coq Require Import List.
From Verif Require Import M_ParamObjects.
Import ListNotations.
Open Scope R_scope.

(** * Histories *)
(** A call of the constructor, and the sequence of its results: the key looked up and the object returned. *)
Inductive event := New (name : string) (ks : list kwarg) (rand : C) | Copy (b : nat) (ks : list kwarg).
Definition step (e : event) (w : world) : option (nat * world) :=
  match e with New n ks r => Some (new_param n ks r w) | Copy b ks => copy_param b ks w end.
Definition key_of (e : event) (w : world) : option key :=
  match e with New n ks _ => Some (n, sanitize ks) | Copy b ks => option_map (fun p => (pname p, sanitize ks)) (objects w b) end.
Inductive runs : world -> list event -> list (key * nat) -> world -> Prop :=
| runs_nil w : runs w [] [] w
| runs_cons w e k a w1 es tr w2 : key_of e w = Some k -> step e w = Some (a, w1) -> runs w1 es tr w2 -> runs w (e :: es) ((k, a) :: tr) w2.

Lemma capacity_eq : capacity = 1000%nat.
Proof. reflexivity. Qed.
Lemma capacity_pos : (1 <= capacity)%nat.
Proof. unfold capacity. apply Nat.leb_le. reflexivity. Qed.
#[local] Opaque capacity.

Lemma kwname_eqb_eq a b : kwname_eqb a b = true <-> a = b.
Proof. destruct a, b; cbn; split; congruence. Qed.
Lemma assumptions_eqb_eq a : forall b, assumptions_eqb a b = true <-> a = b.
Proof.
  induction a as [|(x, u) a IH]; intros [|(y, v) b]; cbn [assumptions_eqb fst snd]; try (split; congruence).
  rewrite !andb_true_iff, kwname_eqb_eq, Bool.eqb_true_iff, IH. split; [intros ((-> & ->) & ->); reflexivity|intros H; injection H as -> -> ->; auto].
Qed.
Lemma key_eqb_eq a b : key_eqb a b = true <-> a = b.
Proof. destruct a, b. unfold key_eqb. cbn [fst snd]. rewrite andb_true_iff, String.eqb_eq, assumptions_eqb_eq. split; [intros (-> & ->); reflexivity|intros H; injection H as -> ->; auto]. Qed.
Lemma key_eqb_refl a : key_eqb a a = true.
Proof. apply key_eqb_eq. reflexivity. Qed.

Definition ckeys (w : world) : list key := map fst (cache w).
(** What every reachable world satisfies. *)
Record good (w : world) : Prop := {
  good_keys : NoDup (ckeys w);
  good_ids : forall k a, In (k, a) (cache w) -> exists p, objects w a = Some p /\ assumed p = k;
  good_fresh : forall a p, objects w a = Some p -> (a < fresh w)%nat;
  good_len : (length (cache w) <= capacity)%nat }.
Lemma good_empty : good empty.
Proof. constructor; cbn; [constructor|intros k a []|discriminate|lia]. Qed.

Lemma cached_in k l a : cached k l = Some a -> In (k, a) l.
Proof. unfold cached. destruct (find _ l) as [(k', b)|] eqn:F; [|discriminate]. cbn. intros E. injection E as <-. apply find_some in F as (I & Q). cbn [fst] in Q. apply key_eqb_eq in Q. subst k'. exact I. Qed.
Lemma cached_none k l : cached k l = None <-> ~ In k (map fst l).
Proof.
  unfold cached. destruct (find _ l) as [(k', b)|] eqn:F; cbn; split; try discriminate.
  - intros H. exfalso. apply H. apply find_some in F as (I & Q). cbn [fst] in Q. apply key_eqb_eq in Q. subst k'. apply (in_map fst) in I. exact I.
  - intros _ I. apply in_map_iff in I as ((k', b) & E & I). cbn in E. subst k'. pose proof (find_none _ _ F _ I) as Q. cbn [fst] in Q. rewrite key_eqb_refl in Q. discriminate.
  - reflexivity.
Qed.
Lemma cached_some k a l : NoDup (map fst l) -> In (k, a) l -> cached k l = Some a.
Proof.
  induction l as [|(k', b) l IH]; cbn [map fst]; intros N I; [destruct I|]. inversion N as [|? ? N1 N2]; subst. unfold cached. cbn [find fst]. destruct (key_eqb k' k) eqn:Q.
  - apply key_eqb_eq in Q. subst k'. destruct I as [E|I]; [injection E as <-; reflexivity|]. exfalso. apply N1. apply (in_map fst) in I. exact I.
  - destruct I as [E|I]; [injection E as -> ->; rewrite key_eqb_refl in Q; discriminate|]. apply (IH N2 I).
Qed.
Lemma filter_keys k (l : list (key * nat)) k' : In k' (map fst (filter (fun e => negb (key_eqb (fst e) k)) l)) -> k' <> k /\ In k' (map fst l).
Proof. intros I. apply in_map_iff in I as ((x, b) & E & I). cbn in E. subst x. apply filter_In in I as (I & Q). cbn [fst] in Q. split; [intros ->; rewrite key_eqb_refl in Q; discriminate|]. apply (in_map fst) in I. exact I. Qed.
Lemma filter_nodup k (l : list (key * nat)) : NoDup (map fst l) -> NoDup (map fst (filter (fun e => negb (key_eqb (fst e) k)) l)).
Proof.
  induction l as [|(x, b) l IH]; cbn [map filter fst]; intros N; [constructor|]. inversion N as [|? ? N1 N2]; subst. destruct (negb (key_eqb x k)); [|apply IH, N2]. cbn [map fst]. constructor; [|apply IH, N2].
  intros I. apply filter_keys in I. apply N1, I.
Qed.
Lemma nodup_l {A} (l m : list A) : NoDup (l ++ m) -> NoDup l.
Proof. induction l as [|x l IH]; cbn [app]; intros N; [constructor|]. inversion N as [|? ? N1 N2]; subst. constructor; [intros I; apply N1, in_or_app; left; exact I|apply IH, N2]. Qed.
Lemma firstn_nodup {A} n (l : list A) : NoDup l -> NoDup (firstn n l).
Proof. intros N. rewrite <- (firstn_skipn n l) in N. apply nodup_l in N. exact N. Qed.
Lemma firstn_in {A} n (l : list A) x : In x (firstn n l) -> In x l.
Proof. intros I. rewrite <- (firstn_skipn n l). apply in_or_app. left. exact I. Qed.

(** One lookup followed by a write of the object. *)
Definition write (k : key) (t : bool) (v : C) (i : bool) (w : world) : nat * world := let '(a, w') := symbol k w in (a, set_object a (Param k t v i) w').
Lemma write_spec k t v i w a w' : good w -> write k t v i w = (a, w') ->
  good w' /\ objects w' a = Some (Param k t v i) /\ (forall b, b <> a -> objects w' b = objects w b) /\ (fresh w <= fresh w')%nat /\
  (match objects w a with Some p => assumed p = k | None => a = fresh w end).
Proof.
  intros [G1 G2 G3 G4] E. unfold write, symbol in E. destruct (cached k (cache w)) as [b|] eqn:H.
  - injection E as <- <-. pose proof (cached_in _ _ _ H) as I. destruct (G2 k b I) as (p & P1 & P2). split; [|split; [|split; [|split]]].
    + constructor.
      * unfold ckeys. cbn [cache set_object map fst]. constructor; [intros J; apply filter_keys in J as (J & _); congruence|apply filter_nodup, G1].
      * cbn [cache set_object objects]. intros k' c [J|J].
        -- injection J as <- <-. rewrite Nat.eqb_refl. eexists. split; [reflexivity|reflexivity].
        -- apply filter_In in J as (J & Q). cbn [fst] in Q. destruct (G2 k' c J) as (q & Q1 & Q2). destruct (Nat.eqb_spec c b) as [->|N]; [|eauto].
           exfalso. rewrite P1 in Q1. injection Q1 as ->. rewrite P2 in Q2. subst k'. rewrite key_eqb_refl in Q. discriminate.
      * cbn [objects set_object fresh]. intros c q. destruct (Nat.eqb_spec c b) as [->|N]; [intros _; apply (G3 b p P1)|apply G3].
      * cbn [cache set_object]. eapply Nat.le_trans; [|exact G4]. rewrite <- !(map_length fst). apply NoDup_incl_length.
        -- cbn [map fst]. constructor; [intros J; apply filter_keys in J as (J & _); congruence|apply filter_nodup, G1].
        -- cbn [map fst]. intros x [<-|J]; [apply (in_map fst) in I; exact I|apply filter_keys in J; apply J].
    + cbn. rewrite Nat.eqb_refl. reflexivity.
    + intros c N. cbn. destruct (Nat.eqb_spec c b); [contradiction|reflexivity].
    + cbn. lia.
    + rewrite P1. exact P2.
  - injection E as <- <-. apply cached_none in H. split; [|split; [|split; [|split]]].
    + constructor.
      * unfold ckeys. cbn [cache set_object]. rewrite <- firstn_map. apply firstn_nodup. cbn [map fst]. constructor; assumption.
      * cbn [cache set_object objects]. intros k' c J. apply firstn_in in J. destruct J as [J|J].
        -- injection J as <- <-. rewrite Nat.eqb_refl. eexists. split; reflexivity.
        -- destruct (G2 k' c J) as (q & Q1 & Q2). destruct (Nat.eqb_spec c (fresh w)) as [->|N]; [|eauto]. specialize (G3 _ _ Q1). lia.
      * cbn [objects set_object fresh]. intros c q. destruct (Nat.eqb_spec c (fresh w)) as [->|N]; [lia|]. intros J. specialize (G3 c q J). lia.
      * cbn [cache set_object]. rewrite firstn_length. lia.
    + cbn. rewrite Nat.eqb_refl. reflexivity.
    + intros c N. cbn. destruct (Nat.eqb_spec c (fresh w)); [contradiction|reflexivity].
    + cbn. lia.
    + destruct (objects w (fresh w)) as [p|] eqn:O; [specialize (G3 _ _ O); lia|reflexivity].
Qed.
Lemma step_write e w k a w1 : key_of e w = Some k -> step e w = Some (a, w1) -> exists t v i, write k t v i w = (a, w1).
Proof.
  destruct e as [n ks r|b ks]; cbn [key_of step].
  - intros E H. injection E as <-. injection H as H. exists (get_trainable ks), (match get_value ks with Some v => v | None => r end), (get_time ks). exact H.
  - unfold copy_param. destruct (objects w b) as [p|] eqn:O; cbn [option_map]; [|discriminate]. intros E. injection E as <-. intros H. exists (trainable p), (value p), (is_time p). unfold write.
    destruct (symbol (pname p, sanitize ks) w) as (c, w2). injection H as <- <-. reflexivity.
Qed.
Lemma step_good e w k a w1 : good w -> key_of e w = Some k -> step e w = Some (a, w1) -> good w1.
Proof. intros G K S. destruct (step_write e w k a w1 K S) as (t & v & i & W). apply (write_spec _ _ _ _ _ _ _ G W). Qed.
Theorem C74_reachable_good : forall w es tr w', good w -> runs w es tr w' -> good w'.
Proof. intros w es tr w' G R. induction R as [|w e k a w1 es tr w2 K S R IH]; [exact G|]. apply IH. apply (step_good e w k a w1 G K S). Qed.

(** A call writes one object, the one it returns, and its key never changes. *)
Theorem C74_frame : forall w e k a w', good w -> key_of e w = Some k -> step e w = Some (a, w') ->
  (forall b, b <> a -> objects w' b = objects w b) /\ (forall p, objects w a = Some p -> assumed p = k) /\
  exists p, objects w' a = Some p /\ assumed p = k.
Proof.
  intros w e k a w' G K S. destruct (step_write e w k a w' K S) as (t & v & i & W). destruct (write_spec _ _ _ _ _ _ _ G W) as (_ & O & F & _ & A). split; [exact F|]. split.
  - intros p P. rewrite P in A. exact A.
  - eexists. split; [exact O|reflexivity].
Qed.
Lemma runs_keep w es tr w' : good w -> runs w es tr w' -> forall a p, objects w a = Some p -> exists q, objects w' a = Some q /\ assumed q = assumed p.
Proof.
  intros G R. induction R as [w|w e k b w1 es tr w2 K S R IH]; intros a p P; [eauto|]. destruct (C74_frame w e k b w1 G K S) as (F & A & (q & Q1 & Q2)).
  pose proof (step_good e w k b w1 G K S) as G1. destruct (Nat.eq_dec a b) as [->|N].
  - specialize (A p P). destruct (IH G1 b q Q1) as (q' & E1 & E2). exists q'. split; [exact E1|congruence].
  - apply (IH G1 a p). rewrite (F a N). exact P.
Qed.
(** Calls with different names or different flags never return the same object. *)
Theorem C74_distinct : forall w es tr w' k a k' a', good w -> runs w es tr w' -> In (k, a) tr -> In (k', a') tr -> k <> k' -> a <> a'.
Proof.
  assert (T : forall w es tr w', good w -> runs w es tr w' -> forall k a, In (k, a) tr -> exists p, objects w' a = Some p /\ assumed p = k).
  { intros w es tr w' G R. induction R as [w|w e k b w1 es tr w2 K S R IH]; intros k' a' I; [destruct I|]. pose proof (step_good e w k b w1 G K S) as G1.
    destruct I as [I|I]; [|apply (IH G1 k' a' I)]. injection I as <- <-. destruct (C74_frame w e k b w1 G K S) as (_ & _ & (q & Q1 & Q2)).
    destruct (runs_keep w1 es tr w2 G1 R b q Q1) as (q' & E1 & E2). exists q'. split; [exact E1|congruence]. }
  intros w es tr w' k a k' a' G R I I' N E. subst a'. destruct (T w es tr w' G R k a I) as (p & P1 & P2). destruct (T w es tr w' G R k' a I') as (q & Q1 & Q2). congruence.
Qed.

(** ** The cache *)
Lemma write_cache k t v i w a w' : write k t v i w = (a, w') ->
  match cached k (cache w) with
  | Some b => a = b /\ cache w' = (k, b) :: filter (fun e => negb (key_eqb (fst e) k)) (cache w)
  | None => a = fresh w /\ cache w' = firstn capacity ((k, fresh w) :: cache w)
  end.
Proof. unfold write, symbol. destruct (cached k (cache w)) as [b|]; intros E; injection E as <- <-; split; reflexivity. Qed.
Lemma written_front k t v i w a w' : write k t v i w = (a, w') -> exists post, cache w' = (k, a) :: post.
Proof.
  intros W. apply write_cache in W. destruct (cached k (cache w)) as [b|]; destruct W as (-> & ->); [eauto|]. pose proof capacity_pos. destruct capacity as [|n]; [lia|]. cbn [firstn]. eauto.
Qed.
Lemma stays k a D : (length D < capacity)%nat -> forall w es tr w', good w -> runs w es tr w' ->
  (exists pre post, cache w = pre ++ (k, a) :: post /\ incl (map fst pre) D) -> (forall k' b, In (k', b) tr -> k' = k \/ In k' D) -> exists pre post, cache w' = pre ++ (k, a) :: post /\ incl (map fst pre) D.
Proof.
  intros LD w es tr w' G R. induction R as [w|w e k' b w1 es tr w2 K S R IH]; intros P H; [exact P|]. pose proof (step_good e w k' b w1 G K S) as G1.
  apply (IH G1); [|intros; eapply H; right; eassumption]. destruct (step_write e w k' b w1 K S) as (t & v & i & W). destruct P as (pre & post & P & I).
  destruct (assumptions_eqb (snd k') (snd k) && String.eqb (fst k') (fst k)) eqn:Q.
  - assert (E : k' = k) by (apply key_eqb_eq; unfold key_eqb; rewrite andb_comm; exact Q). subst k'. apply write_cache in W.
    assert (Ck : cached k (cache w) = Some a) by (apply cached_some; [apply (good_keys w G)|rewrite P; apply in_or_app; right; left; reflexivity]). rewrite Ck in W. destruct W as (-> & ->). exists [], (filter (fun e0 => negb (key_eqb (fst e0) k)) (cache w)). split; [reflexivity|intros x []].
  - assert (N : k' <> k) by (intros ->; destruct k as (n, l); cbn [fst snd] in Q; rewrite String.eqb_refl, (proj2 (assumptions_eqb_eq l l) eq_refl) in Q; discriminate).
    assert (ID : In k' D) by (destruct (H k' b (or_introl eq_refl)); [contradiction|assumption]).
    assert (NK : key_eqb k k' = false) by (destruct (key_eqb k k') eqn:Q2; [apply key_eqb_eq in Q2; congruence|reflexivity]).
    apply write_cache in W. destruct (cached k' (cache w)) as [c|] eqn:C.
    + destruct W as (-> & ->). exists ((k', c) :: filter (fun e0 => negb (key_eqb (fst e0) k')) pre), (filter (fun e0 => negb (key_eqb (fst e0) k')) post). split.
      * rewrite P, filter_app. cbn [filter fst app]. rewrite NK. reflexivity.
      * cbn [map fst]. intros x [<-|J]; [exact ID|]. apply filter_keys in J. apply I, J.
    + destruct W as (-> & W). assert (L : (length ((k', fresh w) :: pre) <= length D)%nat).
      { rewrite <- (map_length fst). apply NoDup_incl_length; [|cbn [map fst]; intros x [<-|J]; [exact ID|apply I, J]]. cbn [map fst]. apply cached_none in C. pose proof (good_keys w G) as ND. unfold ckeys in ND. rewrite P, map_app in C, ND. constructor.
        - intros J. apply C. apply in_or_app. left. exact J.
        - apply nodup_l in ND. exact ND. }
      rewrite W, P. change ((k', fresh w) :: pre ++ (k, a) :: post) with (((k', fresh w) :: pre) ++ (k, a) :: post). rewrite firstn_app. rewrite firstn_all2 by lia.
      destruct (capacity - length ((k', fresh w) :: pre))%nat as [|m] eqn:M; [lia|]. cbn [firstn]. exists ((k', fresh w) :: pre), (firstn m post). split; [reflexivity|]. cbn [map fst]. intros x [<-|J]; [exact ID|apply I, J].
Qed.
(** Two calls with the same name and flags return the same object, if fewer than 1000 other names or flags were used in between. *)
Theorem C74_same_object : forall w e k a w1 es tr w2 e' b w3 D, good w -> key_of e w = Some k -> step e w = Some (a, w1) -> runs w1 es tr w2 ->
  key_of e' w2 = Some k -> step e' w2 = Some (b, w3) -> (forall k' c, In (k', c) tr -> k' = k \/ In k' D) -> (length D < 1000)%nat -> b = a.
Proof.
  intros w e k a w1 es tr w2 e' b w3 D G K S R K' S' H L. pose proof (step_good e w k a w1 G K S) as G1. pose proof (C74_reachable_good w1 es tr w2 G1 R) as G2.
  destruct (step_write e w k a w1 K S) as (t & v & i & W). destruct (written_front _ _ _ _ _ _ _ W) as (post & P).
  rewrite <- capacity_eq in L. destruct (stays k a D L w1 es tr w2 G1 R) as (pre & post' & P' & _); [exists [], post; split; [exact P|intros x []]|exact H|].
  destruct (step_write e' w2 k b w3 K' S') as (t' & v' & i' & W'). apply write_cache in W'.
  rewrite (cached_some k a) in W' by (apply (good_keys w2 G2) || (rewrite P'; apply in_or_app; right; left; reflexivity)). apply W'.
Qed.

(** ** Attributes *)
(** An object has the attributes of the last call that returned it. *)
Theorem C74_attributes : forall w n ks r a w1 es tr w2, good w -> new_param n ks r w = (a, w1) -> runs w1 es tr w2 -> ~ In a (map snd tr) ->
  exists p, objects w2 a = Some p /\ pname p = n /\ trainable p = get_trainable ks /\ is_time p = get_time ks /\
    value p = match get_value ks with Some v => v | None => r end.
Proof.
  intros w n ks r a w1 es tr w2 G N R H.
  assert (K : key_of (New n ks r) w = Some (n, sanitize ks)) by reflexivity. assert (S : step (New n ks r) w = Some (a, w1)) by (cbn [step]; rewrite N; reflexivity).
  assert (F : objects w2 a = objects w1 a).
  { pose proof (step_good _ _ _ _ _ G K S) as G1. clear N K S G. induction R as [w1|w1 e k b w1' es tr w2 K S R IH]; [reflexivity|]. rewrite IH; [|intros I; apply H; right; exact I|apply (step_good _ _ _ _ _ G1 K S)].
    apply (C74_frame _ _ _ _ _ G1 K S). intros ->. apply H. left. reflexivity. }
  unfold new_param in N. destruct (symbol (n, sanitize ks) w) as (a', w') eqn:E. injection N as <- <-. eexists. rewrite F. cbn [objects set_object]. rewrite Nat.eqb_refl. repeat split.
Qed.

(** Names given as strings, with fewer than 1000 names in all: one object per name, and its value is the last one drawn for it. *)
Definition plain (e : string * C) : event := New (fst e) [] (snd e).
Theorem C74_strings : forall names l tr w n r w' a, (length names < 1000)%nat -> (forall e, In e l -> In (fst e) names) -> runs empty (map plain l) tr w -> new_param n [] r w = (a, w') ->
  (forall b, In ((n, []), b) tr -> b = a) /\ exists p, objects w' a = Some p /\ pname p = n /\ trainable p = true /\ value p = r.
Proof.
  intros names l tr w n r w' a L H R N.
  assert (Last : exists p, objects w' a = Some p /\ pname p = n /\ trainable p = true /\ value p = r).
  { destruct (C74_attributes w n [] r a w' [] [] w' (C74_reachable_good _ _ _ _ good_empty R) N (runs_nil _)) as (p & P1 & P2 & P3 & _ & P4); [intros []|]. exists p. auto. }
  split; [|exact Last]. clear Last. intros b I.
  assert (Gen : forall l w0, good w0 -> (forall e, In e l -> In (fst e) names) -> forall tr, runs w0 (map plain l) tr w -> In ((n, []), b) tr ->
     exists w1 w2 l2 tr2 r0, good w1 /\ step (New n [] r0) w1 = Some (b, w2) /\ runs w2 (map plain l2) tr2 w /\ forall k c, In (k, c) tr2 -> In k (map (fun m => (m, [])) names)).
  { clear. induction l as [|(m, v) l IH]; intros w0 G H tr R I; inversion R as [|? ? k c w1 ? tr' ? K S R']; subst; [destruct I|].
    assert (Keys : forall l w1 tr', (forall e, In e l -> In (fst e) names) -> runs w1 (map plain l) tr' w -> forall k c, In (k, c) tr' -> In k (map (fun m : string => (m, [] : list (kwname * bool))) names)).
    { clear. induction l as [|(m, v) l IH]; intros w1 tr' H R k c I; inversion R as [|? ? k' c' w2 ? tr2 ? K S R']; subst; [destruct I|]. destruct I as [I|I].
      - injection I as -> ->. cbn in K. injection K as <-. apply in_map_iff. exists m. split; [reflexivity|]. apply (H (m, v)). left. reflexivity.
      - apply (IH w2 tr2) with c; [intros; apply H; right; assumption|exact R'|exact I]. }
    destruct I as [I|I].
    - injection I as -> ->. cbn in K. injection K as ->. exists w0, w1, l, tr', v. split; [exact G|]. split; [exact S|]. split; [exact R'|]. intros. eapply Keys; [|exact R'|eassumption]. intros; apply H; right; assumption.
    - apply (IH w1) with tr'; [apply (step_good _ _ _ _ _ G K S)|intros; apply H; right; assumption|exact R'|exact I]. }
  destruct (Gen l empty good_empty H tr R I) as (w1 & w2 & l2 & tr2 & r0 & G & S & R2 & Ks). symmetry.
  eapply (C74_same_object w1 (New n [] r0) (n, []) b w2 (map plain l2) tr2 w (New n [] r) a w' (map (fun m => (m, [])) names)); try assumption; try reflexivity.
  - cbn [step]. rewrite N. reflexivity.
  - intros k c J. right. eapply Ks, J.
  - rewrite map_length. exact L.
Qed.

(** ** Consequences of the sharing *)
Definition value_of (w : world) (a : nat) : option C := option_map value (objects w a).
Lemma new_twice n ks ks' r r' w a w1 b w2 : good w -> sanitize ks = sanitize ks' -> new_param n ks r w = (a, w1) -> new_param n ks' r' w1 = (b, w2) -> b = a /\ good w1 /\ good w2.
Proof.
  intros G E N1 N2. assert (S1 : step (New n ks r) w = Some (a, w1)) by (cbn [step]; rewrite N1; reflexivity). assert (S2 : step (New n ks' r') w1 = Some (b, w2)) by (cbn [step]; rewrite N2; reflexivity).
  pose proof (step_good _ _ _ _ _ G (eq_refl : key_of (New n ks r) w = Some (n, sanitize ks)) S1) as G1. pose proof (step_good _ _ _ _ _ G1 (eq_refl : key_of (New n ks' r') w1 = Some (n, sanitize ks')) S2) as G2. split; [|split; assumption].
  apply (C74_same_object w (New n ks r) (n, sanitize ks) a w1 [] [] w1 (New n ks' r') b w2 []); try assumption; try reflexivity; [constructor|cbn; rewrite E; reflexivity|intros ? ? []|]. cbn [length]. apply Nat.ltb_lt. reflexivity.
Qed.
Lemma new_attr n ks r w a w1 : good w -> new_param n ks r w = (a, w1) -> exists p, objects w1 a = Some p /\ pname p = n /\ trainable p = get_trainable ks /\ is_time p = get_time ks /\ value p = match get_value ks with Some v => v | None => r end.
Proof. intros G N. apply (C74_attributes w n ks r a w1 [] [] w1 G N (runs_nil _)). intros []. Qed.
Lemma frame_new n ks r w a w1 : good w -> new_param n ks r w = (a, w1) ->
  good w1 /\ (forall b, b <> a -> objects w1 b = objects w b) /\ (forall p, objects w a = Some p -> assumed p = (n, sanitize ks)) /\ exists p, objects w1 a = Some p /\ assumed p = (n, sanitize ks).
Proof.
  intros G N. assert (S : step (New n ks r) w = Some (a, w1)) by (cbn [step]; rewrite N; reflexivity). assert (K : key_of (New n ks r) w = Some (n, sanitize ks)) by reflexivity.
  split; [apply (step_good _ _ _ _ _ G K S)|]. apply (C74_frame _ _ _ _ _ G K S).
Qed.
(** A second variational parameter with the same name and another value is the same object: the first one changes its value. *)
Theorem C74_value_refuted : forall w n v1 v2 r a w1 b w2, good w -> is_zero v1 = false -> is_zero v2 = false ->
  VariationalParameter n (Some v1) r w = (a, w1) -> VariationalParameter n (Some v2) r w1 = (b, w2) -> b = a /\ value_of w1 a = Some v1 /\ value_of w2 a = Some v2.
Proof.
  intros w n v1 v2 r a w1 b w2 G Z1 Z2 N1 N2. unfold VariationalParameter in *. destruct (new_twice _ _ _ _ _ _ _ _ _ _ G (ltac:(cbn; rewrite Z1, Z2; reflexivity) : sanitize [Trainable true; Value (Some v1)] = sanitize [Trainable true; Value (Some v2)]) N1 N2) as (-> & G1 & G2).
  split; [reflexivity|]. destruct (new_attr _ _ _ _ _ _ G N1) as (p & P & _ & _ & _ & V). destruct (new_attr _ _ _ _ _ _ G1 N2) as (q & Q & _ & _ & _ & U). cbn in V, U. unfold value_of. rewrite P, Q. cbn. rewrite V, U. split; reflexivity.
Qed.
(** Giving the value None is the same as giving none: the object is shared, and a new random value is drawn for it. *)
Theorem C74_none : forall w n ks r r' a w1 b w2, good w -> get_value ks = None ->
  new_param n ks r w = (a, w1) -> new_param n (Value None :: ks) r' w1 = (b, w2) -> b = a /\ value_of w1 a = Some r /\ value_of w2 a = Some r'.
Proof.
  intros w n ks r r' a w1 b w2 G V N1 N2. destruct (new_twice _ _ _ _ _ _ _ _ _ _ G (eq_refl : sanitize ks = sanitize (Value None :: ks)) N1 N2) as (-> & G1 & G2).
  split; [reflexivity|]. destruct (new_attr _ _ _ _ _ _ G N1) as (p & P & _ & _ & _ & E). destruct (new_attr _ _ _ _ _ _ G1 N2) as (q & Q & _ & _ & _ & U).
  rewrite V in E. cbn in U. unfold value_of. rewrite P, Q. cbn. rewrite E, U. split; reflexivity.
Qed.
(** With the value zero for one of them they are two objects with one name. *)
Theorem C74_zero_value : forall w n v r a w1 b w2, good w -> is_zero v = false ->
  VariationalParameter n (Some v) r w = (a, w1) -> VariationalParameter n (Some (RtoC 0)) r w1 = (b, w2) -> b <> a /\ value_of w2 a = Some v /\ value_of w2 b = Some (RtoC 0).
Proof.
  intros w n v r a w1 b w2 G Z N1 N2. unfold VariationalParameter in *.
  destruct (new_attr _ _ _ _ _ _ G N1) as (p & P & Pn & _ & _ & V).
  destruct (frame_new _ _ _ _ _ _ G N1) as (G1 & _ & _ & (p' & P' & A')). destruct (frame_new _ _ _ _ _ _ G1 N2) as (_ & F & A & _).
  assert (N : b <> a). { intros ->. specialize (A p' P'). rewrite A' in A. cbn in A. rewrite Z in A. assert (Z0 : is_zero (RtoC 0) = true) by (unfold is_zero, RtoC; cbn; destruct (Req_EM_T 0 0); [reflexivity|congruence]). rewrite Z0 in A. discriminate. }
  split; [exact N|]. destruct (new_attr _ _ _ _ _ _ G1 N2) as (q & Q & _ & _ & _ & U). cbn in V, U. unfold value_of. rewrite (F a (not_eq_sym N)), P, Q. cbn. rewrite V, U. split; reflexivity.
Qed.
(** Wrapping a feature parameter again changes an older parameter that was made from the same string: it is no longer trainable. *)
Theorem C74_copy_refuted : forall w n v r r' a w1 b w2 c w3, good w -> new_param n [] r w = (a, w1) -> FeatureParameter n (Some v) r' w1 = (b, w2) -> copy_param b [] w2 = Some (c, w3) ->
  c = a /\ option_map trainable (objects w1 a) = Some true /\ option_map trainable (objects w3 a) = Some false /\ value_of w3 a = Some v.
Proof.
  intros w n v r r' a w1 b w2 c w3 G N1 N2 N3. unfold FeatureParameter in *.
  assert (S1 : step (New n [] r) w = Some (a, w1)) by (cbn [step]; rewrite N1; reflexivity). assert (S2 : step (New n [Trainable false; Value (Some v)] r') w1 = Some (b, w2)) by (cbn [step]; rewrite N2; reflexivity).
  pose proof (proj1 (frame_new _ _ _ _ _ _ G N1)) as G1. pose proof (proj1 (frame_new _ _ _ _ _ _ G1 N2)) as G2.
  destruct (new_attr _ _ _ _ _ _ G1 N2) as (q & Q & Qn & Qt & _ & Qv). cbn in Qt, Qv.
  assert (K3 : key_of (Copy b []) w2 = Some (n, [])) by (cbn; rewrite Q; cbn; rewrite Qn; reflexivity).
  assert (Ec : c = a). { apply (C74_same_object w (New n [] r) (n, []) a w1 [New n [Trainable false; Value (Some v)] r'] [((n, sanitize [Trainable false; Value (Some v)]), b)] w2 (Copy b []) c w3 [(n, sanitize [Trainable false; Value (Some v)])]); try assumption; try reflexivity.
    - econstructor; [reflexivity|exact S2|constructor].
    - intros k' d [E|[]]. injection E as <- <-. right. left. reflexivity.
    - cbn [length]. apply Nat.ltb_lt. reflexivity. }
  split; [exact Ec|]. subst c. destruct (new_attr _ _ _ _ _ _ G N1) as (p & P & _ & Pt & _). rewrite P. cbn in *. rewrite Pt. split; [reflexivity|].
  unfold copy_param in N3. rewrite Q in N3. destruct (symbol _ w2) as (d, w'). injection N3 as -> <-. unfold value_of. cbn [objects set_object]. rewrite Nat.eqb_refl. cbn. rewrite Qt, Qv. split; reflexivity.
Qed.
(** The order of the keywords makes two objects, equal to one another and with the same hash. *)
Theorem C74_order_refuted : forall w n t v r a w1 b w2, good w -> new_param n [Trainable t; Value (Some v)] r w = (a, w1) -> new_param n [Value (Some v); Trainable t] r w1 = (b, w2) ->
  b <> a /\ exists p q, objects w2 a = Some p /\ objects w2 b = Some q /\ param_eq p q /\ same_hash p q.
Proof.
  intros w n t v r a w1 b w2 G N1 N2. destruct (new_attr _ _ _ _ _ _ G N1) as (p & P & Pn & Pt & _ & Pv).
  destruct (frame_new _ _ _ _ _ _ G N1) as (G1 & _ & _ & (p' & P' & A')). rewrite P in P'. injection P' as <-. destruct (frame_new _ _ _ _ _ _ G1 N2) as (_ & F & A & (q' & Q' & B')).
  assert (N : b <> a) by (intros ->; specialize (A p P); rewrite A' in A; cbn in A; discriminate).
  split; [exact N|]. destruct (new_attr _ _ _ _ _ _ G1 N2) as (q & Q & Qn & Qt & _ & Qv). rewrite Q in Q'. injection Q' as <-. cbn in *. exists p, q. rewrite (F a (not_eq_sym N)). split; [exact P|]. split; [exact Q|]. split.
  - unfold param_eq. rewrite Pn, Qn, Pt, Qt, Pv, Qv. repeat split. unfold isclose. replace (v - v)%C with (RtoC 0) by ring. rewrite Cmod_0. eapply Rle_trans; [|apply Rmax_r]. lra.
  - unfold same_hash, assumes. rewrite Pn, Qn, A', B'. cbn. split; [reflexivity|]. intros k b'. tauto.
Qed.
(** Equal parameters need not have the same hash: with and without the keyword [trainable=True]. *)
Theorem C74_hash_refuted : forall w n v r a w1 b w2, good w -> new_param n [Value (Some v)] r w = (a, w1) -> VariationalParameter n (Some v) r w1 = (b, w2) ->
  exists p q, objects w2 a = Some p /\ objects w2 b = Some q /\ param_eq p q /\ ~ same_hash p q.
Proof.
  intros w n v r a w1 b w2 G N1 N2. unfold VariationalParameter in N2. destruct (new_attr _ _ _ _ _ _ G N1) as (p & P & Pn & Pt & _ & Pv).
  destruct (frame_new _ _ _ _ _ _ G N1) as (G1 & _ & _ & (p' & P' & A')). rewrite P in P'. injection P' as <-. destruct (frame_new _ _ _ _ _ _ G1 N2) as (_ & F & A & (q' & Q' & B')).
  assert (N : b <> a) by (intros ->; specialize (A p P); rewrite A' in A; cbn in A; discriminate).
  destruct (new_attr _ _ _ _ _ _ G1 N2) as (q & Q & Qn & Qt & _ & Qv). rewrite Q in Q'. injection Q' as <-. cbn in *. exists p, q. rewrite (F a (not_eq_sym N)). split; [exact P|]. split; [exact Q|]. split.
  - unfold param_eq. rewrite Pn, Qn, Pt, Qt, Pv, Qv. repeat split. unfold isclose. replace (v - v)%C with (RtoC 0) by ring. rewrite Cmod_0. eapply Rle_trans; [|apply Rmax_r]. lra.
  - unfold same_hash, assumes. rewrite A', B'. cbn. intros (_ & H). destruct (proj2 (H KTrainable true) (or_introl eq_refl)) as [E|[]]. discriminate E.
Qed.

(** ** Equality *)
Theorem C74_eq_laws : forall p q, param_eq p p /\ (param_eq p q -> param_eq q p).
Proof.
  intros p q. split.
  - unfold param_eq. repeat split. unfold isclose. replace (value p - value p)%C with (RtoC 0) by ring. rewrite Cmod_0. eapply Rle_trans; [|apply Rmax_r]. lra.
  - unfold param_eq, isclose. intros (-> & -> & H). repeat split. rewrite (Rmax_comm (Cmod (value q))). replace (value q - value p)%C with (- (value p - value q))%C by ring. rewrite Cmod_opp. exact H.
Qed.
(** Equality is not transitive: 0, 1e-7 and 2e-7. *)
Theorem C74_transitive_refuted : forall k t i, exists v1 v2 v3, param_eq (Param k t v1 i) (Param k t v2 i) /\ param_eq (Param k t v2 i) (Param k t v3 i) /\ ~ param_eq (Param k t v1 i) (Param k t v3 i).
Proof.
  intros k t i. exists (RtoC 0), (RtoC (/ 10000000)), (RtoC (2 / 10000000)). unfold param_eq, isclose. cbn [value trainable assumed pname].
  rewrite <- !RtoC_minus, !Cmod_R. rewrite !(Rabs_left (_ - _)) by lra. rewrite !Rabs_pos_eq by lra. repeat split.
  - eapply Rle_trans; [|apply Rmax_r]. lra.
  - eapply Rle_trans; [|apply Rmax_r]. lra.
  - intros (_ & _ & H). rewrite (Rmax_right 0) in H by lra. rewrite Rmax_right in H by lra. lra.
Qed.

(** ** Writing and reading *)
Section Dict.
  Variable V : Type.
  Variable str_of : C -> V.
  Variable float_of : V -> C.
  Notation to_dict := (to_dict V str_of).
  Notation from_dict := (from_dict V float_of).
  (** A parameter that is read back has the name, the kind and the value it was written with; it is never a time parameter. *)
  Theorem C74_round_trip : forall w p a w', good w -> float_of (str_of (value p)) = value p -> from_dict (to_dict p) w = (a, w') ->
    exists q, objects w' a = Some q /\ pname q = pname p /\ trainable q = trainable p /\ value q = value p /\ is_time q = false.
  Proof.
    intros w p a w' G F N. unfold M_ParamObjects.from_dict, M_ParamObjects.to_dict in N. destruct (new_attr _ _ _ _ _ _ G N) as (q & Q & Qn & Qt & Qi & Qv). exists q. cbn in *. rewrite Qt, Qv, F. repeat split; try assumption.
    destruct (trainable p); reflexivity.
  Qed.
  (** A time parameter is read back as an ordinary input. *)
  Theorem C74_time_refuted : forall w n r a w1 p b w2, good w -> TimeParameter n r w = (a, w1) -> objects w1 a = Some p -> from_dict (to_dict p) w1 = (b, w2) -> float_of (str_of (value p)) = value p ->
    is_time p = true /\ option_map is_time (objects w2 b) = Some false.
  Proof.
    intros w n r a w1 p b w2 G N P D F. unfold TimeParameter in N. destruct (new_attr _ _ _ _ _ _ G N) as (p' & P' & _ & _ & I & _). rewrite P in P'. injection P' as <-. split; [exact I|].
    pose proof (proj1 (frame_new _ _ _ _ _ _ G N)) as G1.
    destruct (C74_round_trip w1 p b w2 G1 F D) as (q & Q & _ & _ & _ & T). rewrite Q. cbn. rewrite T. reflexivity.
  Qed.
  (** Reading an old copy of a parameter sets the live parameter back to the old value. *)
  Theorem C74_load_refuted : forall w n v1 v2 r a w1 p b w2 c w3, good w -> is_zero v1 = false -> is_zero v2 = false -> float_of (str_of v1) = v1 ->
    VariationalParameter n (Some v1) r w = (a, w1) -> objects w1 a = Some p -> VariationalParameter n (Some v2) r w1 = (b, w2) -> from_dict (to_dict p) w2 = (c, w3) ->
    b = a /\ c = a /\ value_of w2 b = Some v2 /\ value_of w3 b = Some v1.
  Proof.
    intros w n v1 v2 r a w1 p b w2 c w3 G Z1 Z2 F N1 P N2 D. destruct (C74_value_refuted w n v1 v2 r a w1 b w2 G Z1 Z2 N1 N2) as (-> & V1 & V2).
    unfold VariationalParameter in *. destruct (new_attr _ _ _ _ _ _ G N1) as (p' & P' & Pn & Pt & _ & Pv). rewrite P in P'. injection P' as <-. cbn in Pt, Pv.
    destruct (new_twice _ _ _ _ _ _ _ _ _ _ G (ltac:(cbn; rewrite Z1, Z2; reflexivity) : sanitize [Trainable true; Value (Some v1)] = sanitize [Trainable true; Value (Some v2)]) N1 N2) as (_ & G1 & G2).
    unfold M_ParamObjects.from_dict, M_ParamObjects.to_dict in D. rewrite Pn, Pt, Pv, F in D. change (String.eqb "True" "True") with true in D.
    destruct (new_twice _ _ _ _ _ _ _ _ _ _ G1 (ltac:(cbn; rewrite Z1, Z2; reflexivity) : sanitize [Trainable true; Value (Some v2)] = sanitize [Trainable true; Value (Some v1)]) N2 D) as (-> & _ & _).
    repeat split; [exact V2|]. destruct (new_attr _ _ _ _ _ _ G2 D) as (q & Q & _ & _ & _ & U). unfold value_of. rewrite Q. cbn in *. rewrite U. reflexivity.
  Qed.
End Dict.

(** ** A full cache *)
(** After 1000 other names a name gives a new object. *)
Theorem C74_evicted_refuted : forall n r others w w1 a tr w2 r' b w3, good w -> new_param n [] r w = (a, w1) -> length others = 1000%nat -> NoDup (map fst others) -> ~ In n (map fst others) ->
  (forall m, In m (map fst others) -> ~ In (m, []) (ckeys w)) -> runs w1 (map plain others) tr w2 -> new_param n [] r' w2 = (b, w3) -> b <> a /\ value_of w3 a = Some r /\ value_of w3 b = Some r'.
Proof.
  intros n r others w w1 a tr w2 r' b w3 G N1 L ND NI Fr R N2.
  pose proof (proj1 (frame_new _ _ _ _ _ _ G N1)) as G1.
  assert (C1 : forall k, In k (ckeys w1) -> k = (n, []) \/ In k (ckeys w)).
  { intros k I. assert (S1 : step (New n [] r) w = Some (a, w1)) by (cbn [step]; rewrite N1; reflexivity). destruct (step_write (New n [] r) w (n, []) a w1 eq_refl S1) as (t & v & i & W). apply write_cache in W. unfold ckeys in *. destruct (cached _ _); destruct W as (_ & W); rewrite W in I.
    - cbn [map fst] in I. destruct I as [I|I]; [left; symmetry; exact I|]. apply filter_keys in I. right. apply I.
    - rewrite <- firstn_map in I. apply firstn_in in I. cbn [map fst] in I. destruct I as [I|I]; [left; symmetry; exact I|right; exact I]. }
  assert (Gen : forall l w0 tr, good w0 -> NoDup (map fst l) -> (forall m, In m (map fst l) -> ~ In (m, []) (ckeys w0)) -> runs w0 (map plain l) tr w2 -> exists pre, length pre = length l /\ ckeys w2 = firstn capacity (pre ++ ckeys w0) /\ forall k, In k pre -> exists m, In m (map fst l) /\ k = (m, [])).
  { clear. induction l as [|(m, v) l IH]; intros w0 tr G ND Fr R; inversion R as [|? ? k c w1 ? tr' ? K S R']; subst.
    - exists []. split; [reflexivity|]. split; [|intros k []]. cbn [app]. rewrite firstn_all2; [reflexivity|]. unfold ckeys. rewrite map_length. apply (good_len _ G).
    - cbn in K. injection K as <-. cbn [map fst] in ND, Fr. inversion ND as [|? ? ND1 ND2]; subst. pose proof (step_good (plain (m, v)) w0 (m, []) c w1 G eq_refl S) as G1.
      destruct (step_write (plain (m, v)) w0 (m, []) c w1 eq_refl S) as (t & u & i & W). apply write_cache in W. rewrite (proj2 (cached_none _ _) (Fr m (or_introl eq_refl))) in W. destruct W as (_ & W).
      assert (W' : ckeys w1 = firstn capacity ((m, []) :: ckeys w0)) by (unfold ckeys; rewrite W, <- firstn_map; reflexivity).
      destruct (IH w1 tr' G1 ND2) as (pre & Lp & Cp & Kp); [|exact R'|].
      + intros m' I J. rewrite W' in J. apply firstn_in in J. destruct J as [J|J]; [injection J as <-; contradiction|]. apply (Fr m' (or_intror I) J).
      + exists (pre ++ [(m, [])]). split; [rewrite app_length; cbn [length]; lia|]. split.
        * rewrite Cp, W', <- app_assoc. cbn [app]. rewrite !firstn_app, firstn_firstn. f_equal. f_equal. lia.
        * intros k J. apply in_app_or in J as [J|[<-|[]]]; [destruct (Kp k J) as (m' & M1 & M2); exists m'; split; [right; exact M1|exact M2]|exists m; split; [left; reflexivity|reflexivity]]. }
  destruct (Gen others w1 tr G1 ND) as (pre & Lp & Cp & Kp); [|exact R|].
  { intros m I J. apply C1 in J as [J|J]; [injection J as <-; contradiction|exact (Fr m I J)]. }
  pose proof (C74_reachable_good _ _ _ _ G1 R) as G2.
  assert (Out : ~ In (n, []) (ckeys w2)).
  { rewrite <- capacity_eq in L. rewrite Cp, firstn_app, Lp, L, Nat.sub_diag. cbn [firstn]. rewrite app_nil_r. intros J. apply firstn_in in J. destruct (Kp _ J) as (m & M1 & M2). injection M2 as <-. contradiction. }
  destruct (frame_new _ _ _ _ _ _ G N1) as (_ & _ & _ & (p & P & A)). destruct (new_attr _ _ _ _ _ _ G N1) as (p' & P' & _ & _ & _ & V). rewrite P in P'. injection P' as <-. cbn in V.
  assert (Fa : forall l w0 tr, good w0 -> ~ In n (map fst l) -> objects w0 a = Some p -> runs w0 (map plain l) tr w2 -> objects w2 a = Some p).
  { revert A. clear. intros A. induction l as [|(m, v) l IH]; intros w0 tr G NI P R; inversion R as [|? ? k c w1 ? tr' ? K S R']; subst; [exact P|].
    assert (N : new_param m [] v w0 = (c, w1)) by (cbn in S; injection S as S; exact S). destruct (frame_new _ _ _ _ _ _ G N) as (G1 & F & B & _).
    apply (IH w1 tr' G1); [intros I; apply NI; right; exact I| |exact R']. rewrite F; [exact P|]. intros <-. specialize (B p P). rewrite A in B. injection B as ->. apply NI. left. reflexivity. }
  pose proof (Fa others w1 tr G1 NI P R) as Pa. destruct (frame_new _ _ _ _ _ _ G2 N2) as (_ & F & _ & _). destruct (new_attr _ _ _ _ _ _ G2 N2) as (q & Q & _ & _ & _ & U). cbn in U.
  assert (Nb : b <> a).
  { assert (S2 : step (New n [] r') w2 = Some (b, w3)) by (cbn [step]; rewrite N2; reflexivity). destruct (step_write (New n [] r') w2 (n, []) b w3 eq_refl S2) as (t & u & i & W). apply write_cache in W. rewrite (proj2 (cached_none _ _) Out) in W. destruct W as (-> & _).
    pose proof (good_fresh _ G2 a p Pa). lia. }
  split; [exact Nb|]. unfold value_of. rewrite (F a (not_eq_sym Nb)), Pa, Q. cbn. rewrite V, U. split; reflexivity.
Qed.

(** ** Evaluating an expression *)
Fixpoint peval (env : pexpr -> C) (e : pexpr) : C :=
  match e with
  | ENum c => c
  | ESum x y => (peval env x + peval env y)%C
  | EProd x y => (peval env x * peval env y)%C
  | EFun g x => g (peval env x)
  | s => env s
  end.
(** The value of a symbol: the one given for its name, or else the parameter's own. *)
Definition assigned (w : world) (values : list (string * C)) (s : pexpr) (v : C) : Prop :=
  match s with
  | ESym a => exists p, objects w a = Some p /\ (lookup (pname p) values = Some v \/ (lookup (pname p) values = None /\ v = value p))
  | EPlain n => lookup n values = Some v
  | _ => False
  end.
Lemma query_assigned w values s v : query w values s = Some v <-> assigned w values s v.
Proof.
  destruct s as [a|n|c|x y|x y|g x]; cbn [query assigned]; try (split; [discriminate|tauto]); [|reflexivity]. destruct (objects w a) as [p|]; [|split; [discriminate|intros (p & E & _); discriminate]]. split.
  - intros E. exists p. split; [reflexivity|]. destruct (lookup (pname p) values) as [u|]; [left; exact E|right; split; [reflexivity|congruence]].
  - intros (q & E & H). injection E as <-. destruct H as [H|(H & ->)]; rewrite H; reflexivity.
Qed.
Lemma subs_eval f env e : (forall s, In s (free_symbols e) -> f s = Some (env s)) -> subs f e = Some (peval env e).
Proof.
  induction e as [a|n|c|x IHx y IHy|x IHx y IHy|g x IHx]; cbn [free_symbols subs peval]; intros H.
  - apply H. left. reflexivity.
  - apply H. left. reflexivity.
  - reflexivity.
  - rewrite IHx, IHy by (intros s I; apply H, in_or_app; auto). reflexivity.
  - rewrite IHx, IHy by (intros s I; apply H, in_or_app; auto). reflexivity.
  - rewrite IHx by exact H. reflexivity.
Qed.
Lemma all_some_spec {A B} (f : A -> option B) l : all_some (map f l) = true <-> forall x, In x l -> f x <> None.
Proof.
  induction l as [|x l IH]; cbn [map all_some]; [split; [intros _ x []|reflexivity]|]. destruct (f x) as [b|] eqn:E.
  - rewrite IH. split; [intros H y [<-|I]; [rewrite E; discriminate|apply H, I]|intros H y I; apply H; right; exact I].
  - split; [discriminate|]. intros H. exfalso. apply (H x); [left; reflexivity|exact E].
Qed.
(** The value of an expression is computed from the assigned values; it fails exactly when a plain symbol has no value. *)
Theorem C74_evaluate : forall order w e values env, (forall l x, In x (order l) <-> In x l) -> (forall s, In s (free_symbols e) -> assigned w values s (env s)) ->
  evaluate order w e values false = Some (peval env e).
Proof.
  intros order w e values env O H. unfold evaluate. assert (A : all_some (map (query w values) (order (free_symbols e))) = true).
  { apply all_some_spec. intros s I. apply (proj1 (O _ _)) in I. rewrite (proj2 (query_assigned w values s (env s)) (H s I)). discriminate. }
  rewrite A. cbn [negb]. apply subs_eval. intros s I. apply query_assigned, H, I.
Qed.
Theorem C74_evaluate_fails : forall order w e values as_torch n, (forall l x, In x (order l) <-> In x l) -> In (EPlain n) (free_symbols e) -> lookup n values = None ->
  evaluate order w e values as_torch = None.
Proof.
  intros order w e values t n O I L. unfold evaluate. destruct (all_some (map (query w values) (order (free_symbols e)))) eqn:A; [|reflexivity]. exfalso.
  apply (proj1 (all_some_spec _ _) A (EPlain n)); [apply (proj2 (O _ _)), I|exact L].
Qed.
(** The differentiable form has the same value if different symbols of the expression have different names. *)
Theorem C74_evaluate_torch : forall order w e values env, (forall l x, In x (order l) <-> In x l) -> (forall s, In s (free_symbols e) -> assigned w values s (env s)) ->
  (forall s s' n, In s (free_symbols e) -> In s' (free_symbols e) -> symbol_name w s = Some n -> symbol_name w s' = Some n -> s = s') ->
  evaluate order w e values true = Some (peval env e).
Proof.
  intros order w e values env O H U. unfold evaluate. assert (Q : forall s, In s (free_symbols e) -> query w values s = Some (env s)) by (intros s I; apply query_assigned, H, I).
  assert (A : all_some (map (query w values) (order (free_symbols e))) = true) by (apply all_some_spec; intros s I; apply (proj1 (O _ _)) in I; rewrite (Q s I); discriminate).
  rewrite A. cbn [negb]. apply subs_eval. intros s I.
  assert (Nm : exists n, symbol_name w s = Some n). { specialize (H s I). destruct s; cbn [assigned symbol_name] in *; try contradiction; [|eauto]. destruct H as (p & -> & _). cbn. eauto. }
  destruct Nm as (n & Nm). rewrite Nm.
  assert (Gen : forall l, (forall x, In x l -> In x (free_symbols e)) -> In s l -> lookup n (flat_map (fun s0 => match symbol_name w s0, query w values s0 with Some n0, Some v => [(n0, v)] | _, _ => [] end) l) = Some (env s)).
  { induction l as [|x l IH]; intros Hl Is; [destruct Is|]. cbn [flat_map]. assert (Ix : In x (free_symbols e)) by (apply Hl; left; reflexivity). rewrite (Q x Ix). destruct (symbol_name w x) as [m|] eqn:Nx.
    - cbn [app]. unfold lookup. cbn [find fst]. destruct (String.eqb_spec m n) as [->|Ne].
      + rewrite (U x s n Ix I Nx Nm). reflexivity.
      + apply IH; [intros y Iy; apply Hl; right; exact Iy|]. destruct Is as [->|Is]; [rewrite Nm in Nx; congruence|exact Is].
    - cbn [app]. apply IH; [intros y Iy; apply Hl; right; exact Iy|]. destruct Is as [->|Is]; [rewrite Nm in Nx; congruence|exact Is]. }
  apply Gen; [intros x J; apply (proj1 (O _ _)); apply in_rev; exact J|]. apply -> in_rev. apply (proj2 (O _ _)), I.
Qed.
(** With two parameters of one name the differentiable form takes one value for both. *)
Theorem C74_same_name_refuted : forall w a b p q, objects w a = Some p -> objects w b = Some q -> pname p = pname q -> value p <> value q -> a <> b ->
  evaluate (fun l => l) w (ESum (ESym a) (ESym b)) [] false = Some (value p + value q)%C /\
  evaluate (fun l => l) w (ESum (ESym a) (ESym b)) [] true = Some (value q + value q)%C.
Proof.
  intros w a b p q P Q E V N. unfold evaluate. cbn [free_symbols app map query subs rev flat_map symbol_name]. rewrite P, Q. cbn [all_some negb lookup find option_map query symbol_name]. rewrite E.
  split; [reflexivity|]. unfold lookup. cbn [find app fst option_map snd]. rewrite String.eqb_refl. reflexivity.
Qed.

(** ** Examples *)
Example one_nonzero : is_zero (RtoC 1) = false /\ is_zero (RtoC 2) = false.
Proof. unfold is_zero, RtoC. cbn. destruct (Req_EM_T 1 0); [lra|]. destruct (Req_EM_T 2 0); [lra|]. split; reflexivity. Qed.
(** Two variational parameters "x" with the values 1 and 2, made one after the other. *)
Example two_values : let '(a, w1) := VariationalParameter "x" (Some (RtoC 1)) (RtoC 0) empty in let '(b, w2) := VariationalParameter "x" (Some (RtoC 2)) (RtoC 0) w1 in
  a = b /\ value_of w1 a = Some (RtoC 1) /\ value_of w2 a = Some (RtoC 2).
Proof.
  destruct (VariationalParameter "x" (Some (RtoC 1)) (RtoC 0) empty) as (a, w1) eqn:E1. destruct (VariationalParameter "x" (Some (RtoC 2)) (RtoC 0) w1) as (b, w2) eqn:E2.
  destruct one_nonzero as (Z1 & Z2). destruct (C74_value_refuted _ _ _ _ _ _ _ _ _ good_empty Z1 Z2 E1 E2) as (-> & H). split; [reflexivity|exact H].
Qed.
(** A history of strings: x, y, x. *)
Example history : exists tr w, runs empty (map plain [("x"%string, RtoC 1); ("y"%string, RtoC 2); ("x"%string, RtoC 3)]) tr w /\ map snd tr = [0; 1; 0]%nat /\ value_of w 0 = Some (RtoC 3) /\ value_of w 1 = Some (RtoC 2).
Proof.
  eexists. eexists. split.
  - cbn [map]. unfold plain. cbn [fst snd]. eapply runs_cons; [reflexivity|cbn [step]; unfold new_param, symbol, cached; cbn [cache empty find option_map]; reflexivity|].
    eapply runs_cons; [reflexivity|cbn [step]; unfold new_param, symbol, cached; cbn [cache set_object]; rewrite capacity_eq; reflexivity|].
    eapply runs_cons; [reflexivity|cbn [step]; unfold new_param, symbol, cached; cbn [cache set_object]; rewrite capacity_eq; reflexivity|]. apply runs_nil.
  - split; [reflexivity|]. split; reflexivity.
Qed.
(** A thousand other names. *)
Fixpoint letters (n : nat) : string := match n with O => EmptyString | S n => String (Ascii.ascii_of_nat 97) (letters n) end.
Lemma letters_length n : String.length (letters n) = n.
Proof. induction n as [|n IH]; [reflexivity|]. cbn [letters String.length]. rewrite IH. reflexivity. Qed.
Lemma runs_exist l : forall w, exists tr w', runs w (map plain l) tr w'.
Proof. induction l as [|(n, r) l IH]; intros w; [do 2 eexists; apply runs_nil|]. destruct (new_param n [] r w) as (a, w1) eqn:E. destruct (IH w1) as (tr & w' & R). do 2 eexists. eapply runs_cons; [reflexivity|cbn [plain step fst snd]; rewrite E; reflexivity|exact R]. Qed.
Example evicted : exists others : list (string * C), length others = 1000%nat /\ NoDup (map fst others) /\ ~ In "x"%string (map fst others) /\ forall w, exists tr w', runs w (map plain others) tr w'.
Proof.
  rewrite <- capacity_eq. exists (map (fun i => (letters i, RtoC 0)) (seq 0 capacity)). split; [rewrite map_length; apply seq_length|]. rewrite map_map. cbn [fst]. split; [|split].
  - apply Injective_map_NoDup; [|apply seq_NoDup]. intros i j E. rewrite <- (letters_length i), E. apply letters_length.
  - intros I. apply in_map_iff in I as (i & E & _). destruct i; discriminate E.
  - intros w. apply runs_exist.
Qed.

Print Assumptions C74_reachable_good.
Print Assumptions C74_frame.
Print Assumptions C74_distinct.
Print Assumptions C74_same_object.
Print Assumptions C74_attributes.
Print Assumptions C74_strings.
Print Assumptions C74_value_refuted.
Print Assumptions C74_zero_value.
Print Assumptions C74_copy_refuted.
Print Assumptions C74_order_refuted.
Print Assumptions C74_hash_refuted.
Print Assumptions C74_eq_laws.
Print Assumptions C74_transitive_refuted.
Print Assumptions C74_round_trip.
Print Assumptions C74_time_refuted.
Print Assumptions C74_load_refuted.
Print Assumptions C74_evicted_refuted.
Print Assumptions C74_evaluate.
Print Assumptions C74_evaluate_fails.
Print Assumptions C74_evaluate_torch.
Print Assumptions C74_same_name_refuted.
