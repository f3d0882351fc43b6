(** C93: finding blocks by their parameters. *)
From Coq Require Import String List Arith Bool Lia.
From Verif Require Import M_Trainable P_Trainable M_Lookup.
Import ListNotations.

(** Specification: [slot u e x b], the block [b] has the part [x] (outside of non-parametric controls), one of whose parameters has the
    identifier [u] and the value [e]. *)
Inductive slot (u : nat) (e : pexpr) (x : tblock) : tblock -> Prop :=
| slot_here : In (u, e) (params_of x) -> slot u e x x
| slot_gen g m : slot u e x g -> slot u e x (TEvo (Some g) m)
| slot_scaled b u' e' : slot u e x b -> slot u e x (TScale b u' e')
| slot_comp bs b : In b bs -> slot u e x b -> slot u e x (TComp bs).
(** An identifier belongs to one parameter of one block (which may occur several times). *)
Definition identifiers (b : tblock) : Prop := forall u e e' x x', slot u e x b -> slot u e' x' b -> e = e' /\ x = x'.

(** * Dictionaries *)
Lemma bput_key d k v u : In u (map fst (bput d k v)) <-> u = k \/ In u (map fst d).
Proof.
  unfold bput. destruct (existsb _ d) eqn:E.
  - assert (M : map fst (map (fun p => if Nat.eqb (fst p) k then (k, v) else p) d) = map fst d).
    { rewrite map_map. apply map_ext. intros [a x]. cbn [fst]. destruct (Nat.eqb a k) eqn:F; [apply Nat.eqb_eq in F; subst|]; reflexivity. }
    rewrite M. split; [auto|]. intros [->|H]; [|exact H]. apply existsb_exists in E as ([a x] & I & F). apply Nat.eqb_eq in F. cbn [fst] in F. subst. apply (in_map fst) in I. exact I.
  - rewrite map_app, in_app_iff. cbn. split; [intros [H|[H|[]]]; auto|intros [->|H]; auto].
Qed.
Lemma bput_in d k v u x : In (u, x) (bput d k v) -> (u = k /\ x = v) \/ In (u, x) d.
Proof.
  unfold bput. destruct (existsb _ d).
  - intros H. apply in_map_iff in H as ([a y] & E & H). cbn [fst] in E. destruct (Nat.eqb a k); injection E as <- <-; auto.
  - intros H. apply in_app_iff in H as [H|[H|[]]]; [auto|]. injection H as <- <-. auto.
Qed.
Lemma bput_nodup d k v : NoDup (map fst d) -> NoDup (map fst (bput d k v)).
Proof.
  unfold bput. intros N. destruct (existsb _ d) eqn:E.
  - rewrite map_map. replace (map _ d) with (map fst d); [exact N|]. apply map_ext. intros [a x]. cbn [fst]. destruct (Nat.eqb a k) eqn:F; [apply Nat.eqb_eq in F; subst|]; reflexivity.
  - rewrite map_app. cbn. apply NoDup_rev in N. rewrite <- (rev_involutive (map fst d ++ [k])). apply NoDup_rev. rewrite rev_app_distr. cbn. constructor; [|exact N].
    rewrite <- in_rev. intros I. apply in_map_iff in I as ([a x] & F & I). cbn [fst] in F. subst. assert (T : existsb (fun p => Nat.eqb (fst p) k) d = true); [|rewrite T in E; discriminate].
    apply existsb_exists. exists (k, x). split; [exact I|]. apply Nat.eqb_refl.
Qed.
Lemma put_all_key b d u : In u (map fst (put_all b d)) <-> In u (map fst (params_of b)) \/ In u (map fst d).
Proof.
  unfold put_all. generalize (map fst (params_of b)). intros l. revert d. induction l as [|k l IH]; intros d; cbn [fold_left].
  - split; [auto|intros [[]|H]; exact H].
  - rewrite IH, bput_key. cbn [In]. split; [intros [H|[->|H]]; auto|intros [[->|H]|H]; auto].
Qed.
Lemma put_all_in b d u x : In (u, x) (put_all b d) -> (In u (map fst (params_of b)) /\ x = b) \/ In (u, x) d.
Proof.
  unfold put_all. generalize (map fst (params_of b)). intros l. revert d. induction l as [|k l IH]; intros d; cbn [fold_left]; [auto|].
  intros H. apply IH in H as [[H ->]|H]; [left; split; [right; exact H|reflexivity]|]. apply bput_in in H as [[-> ->]|H]; [left; split; [left; reflexivity|reflexivity]|auto].
Qed.
Lemma put_all_nodup b d : NoDup (map fst d) -> NoDup (map fst (put_all b d)).
Proof. unfold put_all. generalize (map fst (params_of b)). intros l. revert d. induction l as [|k l IH]; intros d N; [exact N|]. apply IH, bput_nodup, N. Qed.
Lemma key_slot b u : In u (map fst (params_of b)) <-> exists e, In (u, e) (params_of b).
Proof. rewrite in_map_iff. split; [intros ([a e] & <- & H); eauto|intros (e & H); exists (u, e); auto]. Qed.

Lemma u2b_key b : forall d u, In u (map fst (uuid_to_block b d)) <-> (exists e x, slot u e x b) \/ In u (map fst d).
Proof.
  induction b as [|b IH|m|g m IH|b u' e' IH|bs IH|m] using tblock_ind'; intros d u; cbn [uuid_to_block].
  - split; [auto|intros [(e & x & H)|H]; [inversion H; subst; contradiction|exact H]].
  - split; [auto|intros [(e & x & H)|H]; [inversion H; subst; contradiction|exact H]].
  - rewrite put_all_key, key_slot. split; (intros [H|H]; [left|right; exact H]).
    + destruct H as (e & H). exists e, (TParam m). apply slot_here, H.
    + destruct H as (e & x & H). inversion H; subst. eauto.
  - rewrite put_all_key, key_slot. destruct g as [g|].
    + rewrite IH. split.
      * intros [(e & H)|[(e & x & H)|H]]; [left; exists e, (TEvo (Some g) m); apply slot_here, H|left; exists e, x; apply slot_gen, H|right; exact H].
      * intros [(e & x & H)|H]; [inversion H; subst; [left; eauto|right; left; eauto]|auto].
    + split; (intros [H|H]; [left|right; exact H]).
      * destruct H as (e & H). exists e, (TEvo None m). apply slot_here, H.
      * destruct H as (e & x & H). inversion H; subst. eauto.
  - rewrite IH, put_all_key, key_slot. split.
    + intros [(e & x & H)|[(e & H)|H]]; [left; exists e, x; apply slot_scaled, H|left; exists e, (TScale b u' e'); apply slot_here, H|right; exact H].
    + intros [(e & x & H)|H]; [inversion H; subst; [right; left; eauto|left; eauto]|auto].
  - assert (G : forall l d, Forall (fun b => forall d u, In u (map fst (uuid_to_block b d)) <-> (exists e x, slot u e x b) \/ In u (map fst d)) l ->
      (In u (map fst (fold_left (fun d x => uuid_to_block x d) l d)) <-> (exists b e x, In b l /\ slot u e x b) \/ In u (map fst d))).
    { clear. induction l as [|b l IHl]; intros d H; cbn [fold_left].
      - split; [auto|intros [(b & e & x & [] & _)|H']; exact H'].
      - inversion H as [|? ? Hb Hl]; subst. rewrite IHl, Hb by exact Hl. split.
        + intros [(b' & e & x & I & S)|[(e & x & S)|K]]; [left; exists b', e, x; split; [right; exact I|exact S]|left; exists b, e, x; split; [left; reflexivity|exact S]|right; exact K].
        + intros [(b' & e & x & [->|I] & S)|K]; [right; left; eauto|left; eauto|auto]. }
    rewrite G by exact IH. split; (intros [H|H]; [left|right; exact H]).
    + destruct H as (b & e & x & I & S). exists e, x. eapply slot_comp; eassumption.
    + destruct H as (e & x & H). inversion H; subst; [contradiction|]. eauto.
  - rewrite put_all_key, key_slot. split; (intros [H|H]; [left|right; exact H]).
    + destruct H as (e & H). exists e, (TAnalog m). apply slot_here, H.
    + destruct H as (e & x & H). inversion H; subst. eauto.
Qed.
Lemma u2b_in b : forall d u x, In (u, x) (uuid_to_block b d) -> (exists e, slot u e x b) \/ In (u, x) d.
Proof.
  induction b as [|b IH|m|g m IH|b u' e' IH|bs IH|m] using tblock_ind'; intros d u x H; cbn [uuid_to_block] in H; auto.
  - apply put_all_in in H as [[K ->]|H]; [|auto]. apply key_slot in K as (e & K). left. exists e. apply slot_here, K.
  - apply put_all_in in H as [[K ->]|H].
    + apply key_slot in K as (e & K). left. exists e. apply slot_here, K.
    + destruct g as [g|]; [|auto]. apply IH in H as [(e & H)|H]; [left; exists e; apply slot_gen, H|auto].
  - apply IH in H as [(e & H)|H]; [left; exists e; apply slot_scaled, H|]. apply put_all_in in H as [[K ->]|H]; [|auto]. apply key_slot in K as (e & K). left. exists e. apply slot_here, K.
  - assert (G : forall l d, Forall (fun b => forall d u x, In (u, x) (uuid_to_block b d) -> (exists e, slot u e x b) \/ In (u, x) d) l ->
      In (u, x) (fold_left (fun d x => uuid_to_block x d) l d) -> (exists b e, In b l /\ slot u e x b) \/ In (u, x) d).
    { clear. induction l as [|b l IHl]; intros d F H; cbn [fold_left] in H; [auto|]. inversion F as [|? ? Fb Fl]; subst.
      apply IHl in H as [(b' & e & I & S)|H]; [left; exists b', e; split; [right; exact I|exact S]| |exact Fl]. apply Fb in H as [(e & S)|H]; [left; exists b, e; split; [left; reflexivity|exact S]|auto]. }
    apply G in H as [(b & e & I & S)|H]; [left; exists e; eapply slot_comp; eassumption|auto|exact IH].
  - apply put_all_in in H as [[K ->]|H]; [|auto]. apply key_slot in K as (e & K). left. exists e. apply slot_here, K.
Qed.
Lemma u2b_nodup b : forall d, NoDup (map fst d) -> NoDup (map fst (uuid_to_block b d)).
Proof.
  induction b as [|b IH|m|g m IH|b u' e' IH|bs IH|m] using tblock_ind'; intros d N; cbn [uuid_to_block]; auto using put_all_nodup.
  - apply put_all_nodup. destruct g; auto.
  - revert d N. induction IH as [|b bs Hb _ IHb]; intros d N; [exact N|]. cbn [fold_left]. apply IHb, Hb, N.
Qed.
Lemma slot_params u e x b : slot u e x b -> In (u, e) (params_of x).
Proof. induction 1; assumption. Qed.
Lemma find_nodup {V} (d : list (nat * V)) u x : NoDup (map fst d) -> In (u, x) d -> get d u = Some x.
Proof.
  unfold get. induction d as [|[k v] d IH]; intros N I; [destruct I|]. cbn [map fst] in N. inversion N as [|? ? N1 N2]; subst. cbn [find fst].
  destruct I as [E|I]; [injection E as -> ->; rewrite Nat.eqb_refl; reflexivity|].
  destruct (Nat.eqb k u) eqn:E; [|apply IH; assumption]. apply Nat.eqb_eq in E. subst. exfalso. apply N1. apply (in_map fst) in I. exact I.
Qed.
Lemma get_in {V} (d : list (nat * V)) u x : get d u = Some x -> In (u, x) d.
Proof.
  unfold get. destruct (find _ d) as [[k v]|] eqn:E; [|discriminate]. intros H. injection H as <-. apply find_some in E as [I E]. apply Nat.eqb_eq in E. cbn [fst snd] in *. subst. exact I.
Qed.
Lemma get_none {V} (d : list (nat * V)) u : get d u = None -> ~ In u (map fst d).
Proof.
  unfold get. destruct (find _ d) as [[k v]|] eqn:E; [discriminate|]. intros _ I. apply in_map_iff in I as ([k x] & <- & I). apply (find_none _ _ E) in I. cbn [fst] in I. rewrite Nat.eqb_refl in I. discriminate.
Qed.
Lemma u2b_slot b u x : identifiers b -> In (u, x) (uuid_to_block b []) <-> exists e, slot u e x b.
Proof.
  intros C. split; [intros H; apply u2b_in in H as [H|[]]; exact H|]. intros (e & S).
  assert (K : In u (map fst (uuid_to_block b []))) by (apply u2b_key; left; eauto). apply in_map_iff in K as ([k y] & <- & K). cbn [fst] in *.
  pose proof K as K'. apply u2b_in in K' as [(e' & S')|[]]. destruct (C k e e' x y S S') as [_ ->]. exact K.
Qed.

(** A block is found by the identifier of one of its parameters. *)
Theorem C93_uuid : forall b u, identifiers b ->
  match get_block_by_uuid b u with Some x => exists e, slot u e x b | None => forall e x, ~ slot u e x b end.
Proof.
  intros b u C. unfold get_block_by_uuid. destruct (get (uuid_to_block b []) u) as [x|] eqn:E.
  - apply u2b_slot; [exact C|]. apply get_in, E.
  - intros e x S. apply get_none in E. apply E. apply u2b_key. left. eauto.
Qed.

Lemma u2e_spec b : identifiers b -> exists d, uuid_to_expr b = Some d /\ map fst d = map fst (uuid_to_block b []) /\ forall u e, In (u, e) d <-> exists x, slot u e x b.
Proof.
  intros C. unfold uuid_to_expr.
  assert (G : forall l, (forall u x, In (u, x) l -> In (u, x) (uuid_to_block b [])) ->
    exists d, sequence (map (fun kv => option_map (fun e => (fst kv, e)) (get (params_of (snd kv)) (fst kv))) l) = Some d /\ map fst d = map fst l /\
      forall u e, In (u, e) d <-> exists x, In (u, x) l /\ slot u e x b).
  { induction l as [|[u x] l IH]; intros H.
    - exists []. repeat split; intros; [contradiction|]. destruct H0 as (x & [] & _).
    - destruct IH as (d & E & K & S); [intros; apply H; right; assumption|]. destruct (proj1 (u2b_slot b u x C) (H u x (or_introl eq_refl))) as (e & Sx).
      assert (P : get (params_of x) u = Some e).
      { destruct (get (params_of x) u) as [e'|] eqn:P.
        - apply get_in in P. f_equal.
          assert (Sx' : slot u e' x b). { clear -Sx P. induction Sx; [apply slot_here|apply slot_gen|apply slot_scaled|eapply slot_comp]; eauto. }
          apply (C u e' e x x Sx' Sx).
        - exfalso. apply get_none in P. apply P. apply key_slot. exists e. eapply slot_params; exact Sx. }
      exists ((u, e) :: d). cbn [map sequence fst snd]. rewrite P. cbn [option_map]. rewrite E. split; [reflexivity|]. split; [cbn [map fst]; rewrite K; reflexivity|].
      intros u' e'. cbn [In]. rewrite S. split.
      + intros [Q|(y & I & Sy)]; [injection Q as <- <-; exists x; split; [left; reflexivity|exact Sx]|exists y; split; [right; exact I|exact Sy]].
      + intros (y & [Q|I] & Sy); [injection Q as <- <-; left; f_equal; apply (C u e e' x x Sx Sy)|right; eauto]. }
  destruct (G (uuid_to_block b []) (fun _ _ H => H)) as (d & E & K & S). exists d. split; [exact E|]. split; [exact K|]. intros u e. rewrite S. split; [intros (x & _ & H); eauto|].
  intros (x & H). exists x. split; [apply u2b_slot; eauto|exact H].
Qed.
Lemma peqb_spec a : forall b, peqb a b = true <-> a = b.
Proof.
  induction a as [k|o|f l IH] using pexpr_ind'; intros [j|p|g m]; cbn [peqb]; try (split; discriminate).
  - rewrite Nat.eqb_eq. split; congruence.
  - rewrite Nat.eqb_eq. split; congruence.
  - rewrite andb_true_iff, String.eqb_eq. assert (G : forall m, (fix go (l m : list pexpr) {struct l} : bool :=
         match l, m with [], [] => true | x :: l', y :: m' => peqb x y && go l' m' | _, _ => false end) l m = true <-> l = m).
    { clear -IH. induction IH as [|x l Hx _ IHl]; intros [|y m]; try (split; [discriminate|discriminate]); [split; reflexivity|]. rewrite andb_true_iff, Hx, IHl. split; [intros [-> ->]; reflexivity|intros E; injection E; auto]. }
    rewrite G. split; [intros [-> ->]; reflexivity|intros E; injection E; auto].
Qed.
Lemma peqb_refl a : peqb a a = true. Proof. apply peqb_spec. reflexivity. Qed.
Definition at_ (e : pexpr) (d : list (pexpr * list nat)) : list nat := match find (fun p => peqb (fst p) e) d with Some (_, us) => us | None => [] end.
Lemma append_find d e u e' : option_map snd (find (fun p => peqb (fst p) e') (append_at d e u)) =
  if peqb e e' then Some (at_ e' d ++ [u]) else option_map snd (find (fun p => peqb (fst p) e') d).
Proof.
  unfold at_. induction d as [|[a us] d IH]; cbn [append_at find fst].
  - destruct (peqb e e'); reflexivity.
  - destruct (peqb a e) eqn:E; cbn [find fst].
    + apply peqb_spec in E. subst. destruct (peqb e e'); reflexivity.
    + destruct (peqb a e') eqn:F; [|exact IH]. apply peqb_spec in F. subst. destruct (peqb e e') eqn:H; [|reflexivity]. apply peqb_spec in H. subst. rewrite peqb_refl in E. discriminate.
Qed.
Lemma e2u_spec (m : pmap) e : forall d, option_map snd (find (fun p => peqb (fst p) e) (fold_left (fun d ue => append_at d (snd ue) (fst ue)) m d)) =
  match option_map snd (find (fun p => peqb (fst p) e) d), map fst (filter (fun ue => peqb (snd ue) e) m) with
  | None, [] => None | None, us => Some us | Some vs, us => Some (vs ++ us) end.
Proof.
  induction m as [|[u e'] m IH]; intros d; cbn [fold_left filter map fst snd].
  - destruct (find _ d) as [[a vs]|]; cbn [option_map snd]; [rewrite app_nil_r|]; reflexivity.
  - rewrite IH, append_find. unfold at_. destruct (peqb e' e) eqn:E; cbn [map fst].
    + destruct (find _ d) as [[a vs]|]; cbn [option_map snd app]; [rewrite <- app_assoc|]; reflexivity.
    + reflexivity.
Qed.
Lemma filter_nodup {V} (f : nat * V -> bool) l : NoDup (map fst l) -> NoDup (map fst (filter f l)).
Proof.
  induction l as [|[u v] l IH]; intros N; [exact N|]. cbn [map fst] in N. inversion N as [|? ? N1 N2]; subst. cbn [filter]. destruct (f (u, v)); [|apply IH, N2]. cbn [map fst]. constructor; [|apply IH, N2].
  intros I. apply N1. apply in_map_iff in I as ([k x] & <- & I). apply filter_In in I as [I _]. apply (in_map fst) in I. exact I.
Qed.

(** The blocks found for an expression are those with a parameter of this value, once for every such parameter; an expression that is the
    value of no parameter is a KeyError. *)
Theorem C93_expression : forall b e, identifiers b ->
  match get_blocks_by_expression b e with
  | Some l => exists us, us <> [] /\ NoDup us /\ Forall2 (fun u x => slot u e x b) us l /\ (forall u x, slot u e x b -> In u us)
  | None => forall u x, ~ slot u e x b
  end.
Proof.
  intros b e C. unfold get_blocks_by_expression, expression_to_uuids. destruct (u2e_spec b C) as (d & E & K & S). rewrite E. cbn [option_map].
  pose proof (e2u_spec d e []) as F. cbn [find option_map] in F. set (us := map fst (filter (fun ue => peqb (snd ue) e) d)) in *.
  assert (U : forall u, In u us <-> exists x, slot u e x b).
  { intros u. unfold us. rewrite in_map_iff. rewrite <- S. split.
    - intros ([k e'] & <- & I). apply filter_In in I as [I Q]. apply peqb_spec in Q. cbn [snd fst] in *. subst. exact I.
    - intros I. exists (u, e). split; [reflexivity|]. apply filter_In. split; [exact I|apply peqb_refl]. }
  destruct (find _ _) as [[a vs]|] eqn:Q; cbn [option_map snd] in F.
  - assert (EV : vs = us) by (destruct us; [discriminate|injection F as <-; reflexivity]). assert (NE : us <> []) by (destruct us; [discriminate|discriminate]). subst vs.
    assert (G : forall l, (forall u, In u l -> exists x, slot u e x b) -> exists xs, sequence (map (get (uuid_to_block b [])) l) = Some xs /\ Forall2 (fun u x => slot u e x b) l xs).
    { induction l as [|u l IH]; intros H; [exists []; split; [reflexivity|constructor]|]. destruct IH as (xs & I1 & I2); [intros; apply H; right; assumption|]. destruct (H u (or_introl eq_refl)) as (x & Sx).
      exists (x :: xs). cbn [map sequence]. rewrite (find_nodup _ u x), I1; [split; [reflexivity|constructor; assumption]| |]; [apply u2b_nodup; constructor|apply u2b_slot; eauto]. }
    destruct (G us (fun u I => proj1 (U u) I)) as (xs & G1 & G2). rewrite G1. exists us. split; [exact NE|]. split; [apply filter_nodup; rewrite K; apply u2b_nodup; constructor|]. split; [exact G2|].
    intros u x Sx. apply U. eauto.
  - intros u x Sx. assert (I : In u us) by (apply U; eauto). destruct us; [contradiction|discriminate].
Qed.

Lemma nodup_length (l : list nat) : length (nodup Nat.eq_dec l) <= length l /\ (length (nodup Nat.eq_dec l) = length l <-> NoDup l).
Proof.
  induction l as [|x l [IH1 IH2]]; [cbn; split; [lia|split; [constructor|reflexivity]]|]. cbn [nodup]. destruct (in_dec Nat.eq_dec x l) as [I|I]; cbn [length].
  - split; [lia|]. split; [lia|]. intros N. inversion N; subst. contradiction.
  - split; [lia|]. split.
    + intros E. constructor; [exact I|]. apply IH2. lia.
    + intros N. inversion N; subst. f_equal. apply IH2. assumption.
Qed.
Lemma flat_nodup (f : nat * pexpr -> list nat) d : (forall p, NoDup (f p)) -> NoDup (map fst d) ->
  (NoDup (flat_map f d) <-> forall o u1 e1 u2 e2, In (u1, e1) d -> In (u2, e2) d -> In o (f (u1, e1)) -> In o (f (u2, e2)) -> u1 = u2).
Proof.
  intros F. induction d as [|[u e] d IH]; intros N; [split; [intros _ o u1 e1 u2 e2 []|constructor]|]. cbn [map fst] in N. inversion N as [|? ? N1 N2]; subst. cbn [flat_map]. split.
  - intros H o u1 e1 u2 e2 I1 I2 O1 O2.
    assert (D : forall u' e', In (u', e') d -> In o (f (u', e')) -> In o (f (u, e)) -> False).
    { intros u' e' I O O'. clear -H I O O'. revert H. generalize (f (u, e)) O'. intros l. induction l as [|a l IHl]; intros Ol H; [destruct Ol|]. cbn [app] in H. inversion H as [|? ? H1 H2]; subst.
      destruct Ol as [->|Ol]; [|apply IHl; assumption]. apply H1. apply in_or_app. right. apply in_flat_map. eauto. }
    assert (T : NoDup (flat_map f d)). { clear -H. revert H. generalize (f (u, e)). intros l. induction l as [|a l IHl]; intros H; [exact H|]. inversion H; subst. apply IHl. assumption. }
    destruct I1 as [Q1|I1]; destruct I2 as [Q2|I2].
    + congruence.
    + injection Q1 as <- <-. exfalso. eapply D; eassumption.
    + injection Q2 as <- <-. exfalso. eapply D; eassumption.
    + eapply (proj1 (IH N2) T); eassumption.
  - intros H. assert (T : NoDup (flat_map f d)). { apply IH; [exact N2|]. intros o u1 e1 u2 e2 I1 I2. apply H; right; assumption. }
    assert (D : forall o, In o (f (u, e)) -> ~ In o (flat_map f d)).
    { intros o O I. apply in_flat_map in I as ([u' e'] & I & O'). assert (Q : u = u') by (eapply (H o u e u' e'); [left; reflexivity|right; exact I|exact O|exact O']). subst. apply N1. apply (in_map fst) in I. exact I. }
    revert D. generalize (F (u, e)). generalize (f (u, e)). intros l Nl. induction Nl as [|a l Ha _ IHl]; intros D; [exact T|]. cbn [app]. constructor.
    + intros I. apply in_app_iff in I as [I|I]; [contradiction|]. apply (D a); [left; reflexivity|exact I].
    + apply IHl. intros o O. apply D. right. exact O.
Qed.
Lemma filter_flat_map {A B} (p : B -> bool) (f : A -> list B) l : filter p (flat_map f l) = flat_map (fun x => filter p (f x)) l.
Proof. induction l as [|x l IH]; cbn; [reflexivity|]. rewrite filter_app, IH. reflexivity. Qed.

(** A block has duplicate variational parameters exactly if a trainable parameter occurs in the values of two different parameters of its
    parts: the same parameter twice in one expression, or a part used several times, is no duplicate. *)
Theorem C93_duplicates : forall h b, identifiers b ->
  exists r, has_duplicate_vparams h b = Some r /\
  (r = true <-> exists o u1 e1 x1 u2 e2 x2, u1 <> u2 /\ slot u1 e1 x1 b /\ slot u2 e2 x2 b /\ occurs_e o e1 /\ occurs_e o e2 /\ ptrain (h o) = true).
Proof.
  intros h b C. unfold has_duplicate_vparams. destruct (u2e_spec b C) as (d & E & K & S). rewrite E. cbn [option_map]. eexists. split; [reflexivity|].
  rewrite filter_flat_map. set (f := fun x : nat * pexpr => filter (fun o => ptrain (h o)) (nodup Nat.eq_dec (free_symbols (snd x)))).
  assert (NF : forall p, NoDup (f p)) by (intros p; apply NoDup_filter, NoDup_nodup).
  assert (ND : NoDup (map fst d)) by (rewrite K; apply u2b_nodup; constructor).
  assert (IF : forall o u e, In o (f (u, e)) <-> occurs_e o e /\ ptrain (h o) = true). { intros o u e. unfold f. rewrite filter_In, nodup_In. cbn [snd]. rewrite free_symbols_spec. reflexivity. }
  rewrite negb_true_iff, Nat.eqb_neq. rewrite (proj2 (nodup_length _)). rewrite (flat_nodup f d NF ND). split.
  - intros H.
    destruct (existsb (fun p1 => existsb (fun p2 => negb (Nat.eqb (fst p1) (fst p2)) && existsb (fun o => if in_dec Nat.eq_dec o (f p2) then true else false) (f p1)) d) d) eqn:X.
    + apply existsb_exists in X as ([u1 e1] & I1 & X). apply existsb_exists in X as ([u2 e2] & I2 & X). apply andb_true_iff in X as [X1 X2]. apply existsb_exists in X2 as (o & O1 & X2).
      destruct (in_dec Nat.eq_dec o (f (u2, e2))) as [O2|]; [|discriminate]. apply negb_true_iff, Nat.eqb_neq in X1. cbn [fst] in X1. apply S in I1 as (x1 & S1). apply S in I2 as (x2 & S2). apply IF in O1 as [O1 T]. apply IF in O2 as [O2 _].
      exists o, u1, e1, x1, u2, e2, x2. auto 8.
    + exfalso. apply H. intros o u1 e1 u2 e2 I1 I2 O1 O2. destruct (Nat.eq_dec u1 u2) as [Q|Q]; [exact Q|]. exfalso. revert X. apply not_false_iff_true.
      apply existsb_exists. exists (u1, e1). split; [exact I1|]. apply existsb_exists. exists (u2, e2). split; [exact I2|]. apply andb_true_iff. split; [apply negb_true_iff, Nat.eqb_neq; exact Q|].
      apply existsb_exists. exists o. split; [exact O1|]. destruct (in_dec Nat.eq_dec o (f (u2, e2))); [reflexivity|contradiction].
  - intros (o & u1 & e1 & x1 & u2 & e2 & x2 & N & S1 & S2 & O1 & O2 & T) H. apply N. eapply (H o u1 e1 u2 e2); [apply S; eauto|apply S; eauto|apply IF; auto|apply IF; auto].
Qed.

(** chain(RX(0, x), RX(0, x), RX(1, x * y)) where the first two are the same object; parameters 0 and 1 are trainable. *)
Definition lookup_example : tblock := let rx := TParam [(7, PSym 0)] in TComp [rx; rx; TParam [(8, PApp "mul" [PSym 0; PSym 1])]].
Example C93_example : identifiers lookup_example /\ get_blocks_by_expression lookup_example (PSym 0) = Some [TParam [(7, PSym 0)]] /\
  get_blocks_by_expression lookup_example (PSym 1) = None /\ has_duplicate_vparams (fun _ => mkP "x" true 0) lookup_example = Some true.
Proof.
  split; [|repeat split; reflexivity]. intros u e e' x x' H H'. unfold lookup_example in *. inversion H as [H1| | |? b I S]; subst; [contradiction|]. inversion H' as [H1'| | |? b' I' S']; subst; [contradiction|].
  cbn in I, I'. destruct I as [<-|[<-|[<-|[]]]]; inversion S as [Q| | |]; subst; cbn in Q; destruct Q as [Q|[]]; injection Q as <- <-;
    destruct I' as [<-|[<-|[<-|[]]]]; inversion S' as [Q'| | |]; subst; cbn in Q'; destruct Q' as [Q'|[]]; try discriminate; injection Q' as <-; split; reflexivity.
Qed.
(** Parameters within a ControlBlock (a controlled operation that is not one of the parametric controls) are not found. *)
Theorem C93_control_refuted : exists b e, occurs 0 b /\ e = PSym 0 /\ get_blocks_by_expression (TComp [b]) e = None /\ has_duplicate_vparams (fun _ => mkP "x" true 0) (TComp [b; b]) = Some false.
Proof. exists (TCtrl (TParam [(7, PSym 0)])), (PSym 0). repeat split; try reflexivity. apply oc_ctrl. eapply oc_param; [left; reflexivity|constructor]. Qed.

Print Assumptions C93_expression.
Print Assumptions C93_duplicates.
