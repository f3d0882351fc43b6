(** C20: the embedding gives every gate parameter the value of its expression, user inputs first. *)
From Coq Require Import String Ascii List Arith Bool ZArith Lia.
From Verif Require Import M_Embedding.
Import ListNotations.
Open Scope string_scope.
Open Scope list_scope.

(** * Dictionaries *)
Section DictL.
  Context {V : Type}.
  Implicit Types d m : sdict V.
  Lemma get_set d k v k' : get (set d k v) k' = if String.eqb k k' then Some v else get d k'.
  Proof.
    induction d as [|[a w] d IH]; simpl.
    - reflexivity.
    - destruct (String.eqb_spec a k) as [->|N]; simpl.
      + destruct (String.eqb k k'); reflexivity.
      + rewrite IH. destruct (String.eqb_spec a k') as [->|N']; [|reflexivity]. destruct (String.eqb_spec k k') as [->|Q]; [tauto|reflexivity].
  Qed.
  Lemma get_app d m k : get (d ++ m) k = match get d k with Some v => Some v | None => get m k end.
  Proof. induction d as [|[a w] d IH]; simpl; [reflexivity|]. destruct (String.eqb a k); [reflexivity|apply IH]. Qed.
  Lemma get_update m : forall d k, get (update d m) k = match get (rev m) k with Some v => Some v | None => get d k end.
  Proof.
    induction m as [|[a w] m IH]; intros d k; [reflexivity|]. unfold update in *. cbn [fold_left rev fst snd]. rewrite IH, get_app. destruct (get (rev m) k); [reflexivity|].
    rewrite get_set. simpl. destruct (String.eqb a k); reflexivity.
  Qed.
  Lemma get_In d k v : get d k = Some v -> In (k, v) d.
  Proof. induction d as [|[a w] d IH]; simpl; [discriminate|]. destruct (String.eqb_spec a k) as [->|N]; [intros H; injection H as ->; left; reflexivity|right; apply IH; assumption]. Qed.
  Lemma In_get d k v : NoDup (map fst d) -> In (k, v) d -> get d k = Some v.
  Proof.
    induction d as [|[a w] d IH]; intros N I; [destruct I|]. inversion N as [|? ? X Y]; subst. destruct I as [I|I]; simpl.
    - injection I as -> ->. rewrite String.eqb_refl. reflexivity.
    - destruct (String.eqb_spec a k) as [->|Q]; [|apply IH; assumption]. exfalso. apply X. apply (in_map fst) in I. exact I.
  Qed.
  Lemma get_none d k : get d k = None <-> ~ In k (map fst d).
  Proof.
    induction d as [|[a w] d IH]; simpl; [tauto|]. destruct (String.eqb_spec a k) as [->|N].
    - split; [discriminate|tauto].
    - rewrite IH. split; [intros H [Q|Q]; tauto|tauto].
  Qed.
  Lemma get_rev d k : NoDup (map fst d) -> get (rev d) k = get d k.
  Proof.
    intros N. assert (N' : NoDup (map fst (rev d))) by (rewrite map_rev; apply NoDup_rev, N). destruct (get d k) as [v|] eqn:G.
    - apply In_get; [exact N'|]. apply in_rev. rewrite rev_involutive. apply get_In, G.
    - apply get_none. apply get_none in G. rewrite map_rev, <- in_rev. exact G.
  Qed.
  Lemma get_map_val {W} (f : V -> W) d k : get (map (fun kv => (fst kv, f (snd kv))) d) k = option_map f (get d k).
  Proof. induction d as [|[a w] d IH]; simpl; [reflexivity|]. destruct (String.eqb a k); [reflexivity|exact IH]. Qed.
  Lemma has_get d k : has d k = true <-> exists v, get d k = Some v.
  Proof. unfold has. destruct (get d k) as [v|]; split; intros H; try discriminate; [eexists; reflexivity|reflexivity|destruct H; discriminate]. Qed.
End DictL.

(** * Specification *)
Section Spec.
  Variable E V : Type.
  Variable free : E -> list (symbol V).
  Variable fn : E -> sdict V -> V.
  Variable reshape : V -> V.
  Variable one : V.
  (** Where the value of a name comes from in the user's inputs: directly, or, for separate dictionaries, the last one that has it. *)
  Definition input_value (i : inputs_t V) (k : string) : option V :=
    match i with
    | Flat d => get d k
    | Nested l => fold_left (fun acc p => match get (snd p) k with Some v => Some v | None => acc end) l None
    end.
  (** The value of a symbol: inputs first, then the variational parameters, then 1 for time symbols. *)
  Inductive source (params : sdict V) (i : inputs_t V) (s : symbol V) : V -> Prop :=
  | from_inputs v : input_value i (s_name s) = Some v -> source params i s v
  | from_params v : input_value i (s_name s) = None -> get params (s_name s) = Some v -> source params i s v
  | from_time : input_value i (s_name s) = None -> get params (s_name s) = None -> s_time s = true -> source params i s one.
  (** The value of a symbolic expression: its compiled function applied to the values of exactly its free symbols. *)
  Definition expression_value (params : sdict V) (i : inputs_t V) (e : E) (v : V) : Prop :=
    exists kw, v = reshape (fn e kw) /\
      (forall s, In s (free e) -> exists w, get kw (s_name s) = Some w /\ source params i s w) /\
      (forall k, get kw k <> None -> exists s, In s (free e) /\ s_name s = k).
  (** The inputs are flat, or separate under the keys "circuit" and "observables". *)
  Definition inputs_ok (i : inputs_t V) : Prop :=
    match i with
    | Flat d => ~ In "circuit" (map fst d) /\ ~ In "observables" (map fst d)
    | Nested l => In "circuit" (map fst l) \/ In "observables" (map fst l)
    end.
End Spec.
Arguments input_value {V}. Arguments source {V}. Arguments inputs_ok {V}.

Section T.
  Variable E V : Type.
  Variable eqE : forall a b : E, {a = b} + {a <> b}.
  Variable free : E -> list (symbol V).
  Variable is_number is_array : E -> bool.
  Variable str_of hash_of array_str : E -> string.
  Variable fn : E -> sdict V -> V.
  Variable reshape expand : V -> V.
  Variable one : V.
  Variable const_value array_value : E -> V.
  Variable concretize : V -> V.
  Variable uniqE : list E -> list E.
  Variable uniqS : list (symbol V) -> list (symbol V).
  (** list(set(.)) keeps the elements. *)
  Hypothesis HuE : forall l x, In x (uniqE l) <-> In x l.
  Hypothesis HuS : forall l x, In x (uniqS l) <-> In x l.
  Variable uuid_to_expr : list (string * E).

  Notation "'strfy'" := (stringify E is_number is_array str_of hash_of array_str).
  Notation "'gate_fn'" := (embedding_gate E V eqE free is_number is_array str_of hash_of array_str fn reshape one uniqE uuid_to_expr).
  Notation "'expr_fn'" := (embedding_expr E V eqE free is_number is_array str_of hash_of array_str fn reshape expand one uniqE uuid_to_expr).
  Notation "'init'" := (initial_params E V free is_number is_array str_of hash_of array_str const_value array_value concretize uniqE uniqS uuid_to_expr).
  Notation "'emb'" := (embedded E V eqE free is_number is_array str_of hash_of array_str fn reshape one uniqE uuid_to_expr).
  Notation "'value'" := (expression_value E V free fn reshape one).
  (** A number or a constant matrix. *)
  Definition constant (e : E) : Prop := is_number e = true \/ is_array e = true.

  Lemma get_merge l : forall acc k, get (fold_left (fun acc p => update acc (snd p)) l acc) k =
    fold_left (fun a (p : string * sdict V) => match get (rev (snd p)) k with Some v => Some v | None => a end) l (get acc k).
  Proof. induction l as [|p l IH]; intros acc k; [reflexivity|]. simpl. rewrite IH, get_update. reflexivity. Qed.
  Definition dicts (i : inputs_t V) : Prop := match i with Flat d => NoDup (map fst d) | Nested l => Forall (fun p => NoDup (map fst (snd p))) l end.
  Lemma effective_spec i d : dicts i -> effective_inputs V i = Some d -> forall k, get d k = input_value i k.
  Proof.
    intros Hd H k. destruct i as [f|l]; simpl in *.
    - destruct (_ || _); [discriminate|]. injection H as <-. reflexivity.
    - destruct (existsb _ l); [|discriminate]. injection H as <-. unfold merge_separate_params. rewrite get_merge. simpl. clear - Hd. generalize (@None V).
      induction Hd as [|p l N F IH]; intros a; [reflexivity|]. simpl. rewrite get_rev by exact N. apply IH.
  Qed.
  Lemma effective_ok i : (exists d, effective_inputs V i = Some d) <-> inputs_ok i.
  Proof.
    destruct i as [d|l]; simpl.
    - rewrite <- !get_none. unfold has. destruct (get d "circuit"), (get d "observables"); simpl; split; intros H; try (destruct H; discriminate); try (split; reflexivity); eexists; reflexivity.
    - destruct (existsb (fun p => String.eqb (fst p) "circuit" || String.eqb (fst p) "observables") l) eqn:X.
      + split; [intros _|intros _; eexists; reflexivity]. apply existsb_exists in X as (p & I & Q). apply orb_true_iff in Q as [Q|Q]; apply String.eqb_eq in Q; rewrite <- Q; [left|right]; apply in_map, I.
      + split; [intros [? Q]; discriminate|]. intros Q. exfalso. rewrite <- not_true_iff_false in X. apply X. apply existsb_exists.
        destruct Q as [Q|Q]; apply in_map_iff in Q as (p & Qp & I); exists p; (split; [exact I|]); rewrite Qp; reflexivity.
  Qed.

  Lemma sv_source params i d s v : (forall k, get d k = input_value i k) -> (symbol_value V one params d s = Some v <-> source one params i s v).
  Proof.
    intros H. unfold symbol_value. rewrite H. split.
    - destruct (input_value i (s_name s)) as [w|] eqn:I; [intros Q; injection Q as <-; apply from_inputs, I|].
      destruct (get params (s_name s)) as [w|] eqn:P; [intros Q; injection Q as <-; apply from_params; assumption|].
      destruct (s_time s) eqn:T; [intros Q; injection Q as <-; apply from_time; assumption|discriminate].
    - intros [w I|w I P|I P T]; rewrite I; [reflexivity|rewrite P; reflexivity|rewrite P, T; reflexivity].
  Qed.
  Lemma sv_same params d s s' v v' : s_name s = s_name s' -> symbol_value V one params d s = Some v -> symbol_value V one params d s' = Some v' -> v = v'.
  Proof.
    unfold symbol_value. intros ->. destruct (get d (s_name s')); [congruence|]. destruct (get params (s_name s')); [congruence|]. destruct (s_time s); [|discriminate]. destruct (s_time s'); congruence.
  Qed.
  Lemma svs_spec params d l : forall acc kw, symbol_values V one params d l acc = Some kw ->
    (forall s, In s l -> exists v, symbol_value V one params d s = Some v /\ get kw (s_name s) = Some v) /\
    (forall k, ~ In k (map s_name l) -> get kw k = get acc k).
  Proof.
    induction l as [|s l IH]; intros acc kw H; simpl in H; [injection H as <-; split; [intros s []|reflexivity]|].
    destruct (symbol_value V one params d s) as [v|] eqn:S; [|discriminate]. apply IH in H as [H1 H2]. split.
    - intros s' [<-|I]; [|apply H1, I]. exists v. split; [exact S|]. destruct (in_dec String.string_dec (s_name s) (map s_name l)) as [J|J].
      + apply in_map_iff in J as (s' & Q & J). destruct (H1 s' J) as (v' & S' & G). rewrite <- Q, G. f_equal. exact (sv_same params d s' s v' v Q S' S).
      + rewrite (H2 _ J), get_set, String.eqb_refl. reflexivity.
    - intros k N. simpl in N. rewrite H2 by tauto. rewrite get_set. destruct (String.eqb_spec (s_name s) k); [tauto|reflexivity].
  Qed.
  Lemma svs_defined params d l : forall acc, (exists kw, symbol_values V one params d l acc = Some kw) <-> (forall s, In s l -> exists v, symbol_value V one params d s = Some v).
  Proof.
    induction l as [|s l IH]; intros acc; simpl; [split; [intros _ s []|intros _; eexists; reflexivity]|].
    destruct (symbol_value V one params d s) as [v|] eqn:S.
    - rewrite IH. split; [intros H s' [<-|I]; [eexists; exact S|apply H, I]|intros H s' I; apply H; right; exact I].
    - split; [intros [? Q]; discriminate|]. intros H. destruct (H s (or_introl eq_refl)); congruence.
  Qed.

  Lemma eget_eset d k v k' : eget E V eqE (eset E V eqE d k v) k' = if eqE k k' then Some v else eget E V eqE d k'.
  Proof.
    induction d as [|[a w] d IH]; simpl; [reflexivity|]. destruct (eqE a k) as [->|N]; simpl.
    - destruct (eqE k k'); reflexivity.
    - rewrite IH. destruct (eqE a k') as [->|N']; [|reflexivity]. destruct (eqE k k') as [->|Q]; [tauto|reflexivity].
  Qed.
  Lemma embed_exprs_spec params d l : forall acc r, embed_exprs E V eqE free fn reshape one params d l acc = Some r ->
    (forall e, In e l -> exists kw, symbol_values V one params d (free e) [] = Some kw /\ eget E V eqE r e = Some (reshape (fn e kw))) /\
    (forall e, ~ In e l -> eget E V eqE r e = eget E V eqE acc e).
  Proof.
    induction l as [|e l IH]; intros acc r H; simpl in H; [injection H as <-; split; [intros e []|reflexivity]|].
    destruct (symbol_values V one params d (free e) []) as [kw|] eqn:S; [|discriminate]. apply IH in H as [H1 H2]. split.
    - intros e' [<-|I]; [|apply H1, I]. destruct (in_dec eqE e l) as [J|J]; [apply H1, J|]. exists kw. split; [exact S|]. rewrite (H2 _ J), eget_eset. destruct (eqE e e); [reflexivity|tauto].
    - intros e' N. simpl in N. rewrite H2 by tauto. rewrite eget_eset. destruct (eqE e e'); [tauto|reflexivity].
  Qed.
  Lemma embed_exprs_defined params d l : forall acc, (exists r, embed_exprs E V eqE free fn reshape one params d l acc = Some r) <->
    (forall e, In e l -> exists kw, symbol_values V one params d (free e) [] = Some kw).
  Proof.
    induction l as [|e l IH]; intros acc; simpl; [split; [intros _ e []|intros _; eexists; reflexivity]|].
    destruct (symbol_values V one params d (free e) []) as [kw|] eqn:S.
    - rewrite IH. split; [intros H e' [<-|I]; [eexists; exact S|apply H, I]|intros H e' I; apply H; right; exact I].
    - split; [intros [? Q]; discriminate|]. intros H. destruct (H e (or_introl eq_refl)); congruence.
  Qed.
  Lemma embed_consts_spec params l : forall acc r, embed_consts E V eqE is_number is_array str_of hash_of array_str params l acc = Some r ->
    (forall e, In e l -> exists v, get params (strfy e) = Some v /\ eget E V eqE r e = Some v) /\
    (forall e, ~ In e l -> eget E V eqE r e = eget E V eqE acc e).
  Proof.
    induction l as [|e l IH]; intros acc r H; simpl in H; [injection H as <-; split; [intros e []|reflexivity]|].
    destruct (get params (strfy e)) as [v|] eqn:S; [|discriminate]. apply IH in H as [H1 H2]. split.
    - intros e' [<-|I]; [|apply H1, I]. destruct (in_dec eqE e l) as [J|J]; [apply H1, J|]. exists v. split; [exact S|]. rewrite (H2 _ J), eget_eset. destruct (eqE e e); [reflexivity|tauto].
    - intros e' N. simpl in N. rewrite H2 by tauto. rewrite eget_eset. destruct (eqE e e'); [tauto|reflexivity].
  Qed.
  Lemma embed_consts_defined params l : forall acc, (exists r, embed_consts E V eqE is_number is_array str_of hash_of array_str params l acc = Some r) <->
    (forall e, In e l -> exists v, get params (strfy e) = Some v).
  Proof.
    induction l as [|e l IH]; intros acc; simpl; [split; [intros _ e []|intros _; eexists; reflexivity]|].
    destruct (get params (strfy e)) as [v|] eqn:S.
    - rewrite IH. split; [intros H e' [<-|I]; [eexists; exact S|apply H, I]|intros H e' I; apply H; right; exact I].
    - split; [intros [? Q]; discriminate|]. intros H. destruct (H e (or_introl eq_refl)); congruence.
  Qed.
  Lemma in_embedded e : In e (embedded_exprs E is_number is_array uniqE uuid_to_expr) <-> In e (map snd uuid_to_expr) /\ ~ constant e.
  Proof.
    unfold embedded_exprs, unique_expressions, constant. rewrite !filter_In, HuE, !negb_true_iff. split; [intros [[H1 H2] H3]; split; [exact H1|]; intros [Q|Q]; congruence|].
    intros [H1 H2]. destruct (is_array e), (is_number e); tauto.
  Qed.
  Lemma in_consts e : In e (constant_expressions E is_number is_array uniqE uuid_to_expr ++ unique_const_matrices E is_array uniqE uuid_to_expr) <-> In e (map snd uuid_to_expr) /\ constant e.
  Proof.
    unfold constant_expressions, unique_expressions, unique_const_matrices, constant. rewrite in_app_iff, !filter_In, HuE, negb_true_iff. split; [tauto|].
    intros [H1 H2]. destruct (is_array e); tauto.
  Qed.
  Lemma embedded_spec params i d r : (forall k, get d k = input_value i k) -> emb params d = Some r ->
    forall e, In e (map snd uuid_to_expr) -> exists v, eget E V eqE r e = Some v /\
      ((constant e -> get params (strfy e) = Some v) /\ (~ constant e -> value params i e v)).
  Proof.
    intros Hd H e I. unfold embedded in H. destruct (embed_exprs E V eqE free fn reshape one params d _ []) as [acc|] eqn:A; [|discriminate].
    apply embed_exprs_spec in A as [A1 A2]. apply embed_consts_spec in H as [H1 H2].
    assert (C : constant e \/ ~ constant e) by (unfold constant; destruct (is_number e), (is_array e); try tauto; right; intros [Q|Q]; discriminate).
    destruct C as [C|C].
    - destruct (H1 e) as (v & G & R); [apply in_consts; tauto|]. exists v. split; [exact R|]. split; [intros _; exact G|tauto].
    - destruct (A1 e) as (kw & S & R); [apply in_embedded; tauto|]. exists (reshape (fn e kw)). split.
      + rewrite H2; [exact R|]. intros Q. apply in_consts in Q. tauto.
      + split; [tauto|]. intros _. exists kw. split; [reflexivity|]. apply svs_spec in S as [S1 S2]. split.
        * intros s Is. destruct (S1 s Is) as (w & W & G). exists w. split; [exact G|]. apply (sv_source params i d s w Hd), W.
        * intros k N. destruct (in_dec String.string_dec k (map s_name (free e))) as [J|J]; [apply in_map_iff in J as (s & Q & J); exists s; tauto|]. exfalso. apply N. rewrite (S2 k J). reflexivity.
  Qed.
  Lemma embedded_keys params d r : emb params d = Some r -> forall e v, In (e, v) r -> In e (map snd uuid_to_expr).
  Proof.
    assert (Es : forall r e0 v0 e v, In (e, v) (eset E V eqE r e0 v0) -> e = e0 \/ In (e, v) r).
    { intros r0; induction r0 as [|[a w] r' IH]; intros e0 v0 e v; simpl; [intros [Q|[]]; injection Q as <- <-; tauto|]. destruct (eqE a e0) as [->|N]; intros [Q|Q]; try (injection Q as <- <-); try tauto. apply IH in Q. tauto. }
    intros H e v I. unfold embedded in H. destruct (embed_exprs E V eqE free fn reshape one params d _ []) as [acc|] eqn:A; [|discriminate].
    assert (K1 : forall l acc r, embed_exprs E V eqE free fn reshape one params d l acc = Some r -> forall e v, In (e, v) r -> In e l \/ exists w, In (e, w) acc).
    { clear - Es. induction l as [|e0 l IH]; intros acc r H e v I; simpl in H; [injection H as <-; right; exists v; exact I|]. destruct (symbol_values _ _ _ _ _ _); [|discriminate].
      destruct (IH _ _ H e v I) as [J|[w J]]; [left; right; exact J|]. apply Es in J as [->|J]; [left; left; reflexivity|right; exists w; exact J]. }
    assert (K2 : forall l acc r, embed_consts E V eqE is_number is_array str_of hash_of array_str params l acc = Some r -> forall e v, In (e, v) r -> In e l \/ exists w, In (e, w) acc).
    { clear - Es. induction l as [|e0 l IH]; intros acc r H e v I; simpl in H; [injection H as <-; right; exists v; exact I|]. destruct (get _ _); [|discriminate].
      destruct (IH _ _ H e v I) as [J|[w J]]; [left; right; exact J|]. apply Es in J as [->|J]; [left; left; reflexivity|right; exists w; exact J]. }
    destruct (K2 _ _ _ H e v I) as [J|[w J]]; [apply in_consts in J; tauto|]. destruct (K1 _ _ _ A e w J) as [J'|[w' []]]. apply in_embedded in J'. tauto.
  Qed.
  Lemma gate_entries_spec d l : forall acc g, gate_entries E V eqE d l acc = Some g ->
    (forall u e, In (u, e) l -> NoDup (map fst l) -> get g u = eget E V eqE d e /\ eget E V eqE d e <> None) /\ (forall u, ~ In u (map fst l) -> get g u = get acc u).
  Proof.
    induction l as [|[u e] l IH]; intros acc g H; simpl in H; [injection H as <-; split; [intros u e []|reflexivity]|].
    destruct (eget E V eqE d e) as [v|] eqn:G; [|discriminate]. apply IH in H as [H1 H2]. split.
    - intros u' e' [Q|I] N; inversion N as [|? ? X Y]; subst.
      + injection Q as <- <-. rewrite (H2 u X), get_set, String.eqb_refl, G. split; [reflexivity|discriminate].
      + apply H1; assumption.
    - intros u' N. simpl in N. rewrite H2 by tauto. rewrite get_set. destruct (String.eqb_spec u u'); [tauto|reflexivity].
  Qed.
  Lemma gate_entries_defined d l : forall acc, (forall e, In e (map snd l) -> eget E V eqE d e <> None) -> exists g, gate_entries E V eqE d l acc = Some g.
  Proof.
    induction l as [|[u e] l IH]; intros acc H; simpl; [eexists; reflexivity|]. destruct (eget E V eqE d e) as [v|] eqn:G; [|exfalso; apply (H e); [left; reflexivity|exact G]].
    apply IH. intros e' I. apply H. right. exact I.
  Qed.

  (** Every gate parameter gets the value of its expression (inputs first, then variational parameters, 1 for time symbols) or, for a
      constant, the stored constant; there are no other entries. *)
  Theorem C20_gate_level : forall params i g, dicts i -> NoDup (map fst uuid_to_expr) -> gate_fn params i = Some g ->
    (forall u e, In (u, e) uuid_to_expr -> exists v, get g u = Some v /\
       (constant e -> get params (strfy e) = Some v) /\ (~ constant e -> value params i e v)) /\
    (forall u, get g u <> None -> In u (map fst uuid_to_expr)).
  Proof.
    intros params i g Di Nd H. unfold embedding_gate in H. destruct (effective_inputs V i) as [d|] eqn:Ef; [|discriminate].
    destruct (emb params d) as [r|] eqn:R; [|discriminate]. apply gate_entries_spec in H as [H1 H2]. split.
    - intros u e I. destruct (embedded_spec params i d r (effective_spec i d Di Ef) R e) as (v & G & S); [apply (in_map snd) in I; exact I|].
      exists v. split; [|exact S]. destruct (H1 u e I Nd) as [Q _]. congruence.
    - intros u Q. destruct (in_dec String.string_dec u (map fst uuid_to_expr)) as [J|J]; [exact J|]. exfalso. apply Q. rewrite (H2 u J). reflexivity.
  Qed.

  (** The embedding succeeds exactly when the inputs have one of the two forms, every symbol of a symbolic expression has a source and
      every constant is stored: a symbol given nowhere is an error. *)
  Theorem C20_defined : forall params i, dicts i ->
    ((exists g, gate_fn params i = Some g) <->
     inputs_ok i /\
     (forall e, In e (map snd uuid_to_expr) -> ~ constant e -> forall s, In s (free e) -> exists v, source one params i s v) /\
     (forall e, In e (map snd uuid_to_expr) -> constant e -> get params (strfy e) <> None)).
  Proof.
    intros params i Di. rewrite <- effective_ok. unfold embedding_gate. destruct (effective_inputs V i) as [d|] eqn:Ef.
    2: { split; [intros [? Q]; discriminate|intros [[? Q] _]; discriminate]. }
    pose proof (effective_spec i d Di Ef) as Hd.
    assert (Em : (exists r, emb params d = Some r) <->
       (forall e, In e (map snd uuid_to_expr) -> ~ constant e -> forall s, In s (free e) -> exists v, source one params i s v) /\
       (forall e, In e (map snd uuid_to_expr) -> constant e -> get params (strfy e) <> None)).
    { unfold embedded. pose proof (embed_exprs_defined params d (embedded_exprs E is_number is_array uniqE uuid_to_expr) []) as D1.
      assert (D1' : (exists r, embed_exprs E V eqE free fn reshape one params d (embedded_exprs E is_number is_array uniqE uuid_to_expr) [] = Some r) <->
        (forall e, In e (map snd uuid_to_expr) -> ~ constant e -> forall s, In s (free e) -> exists v, source one params i s v)).
      { rewrite D1. split.
        - intros H e I C s Is. destruct (proj1 (svs_defined params d (free e) []) (H e (proj2 (in_embedded e) (conj I C))) s Is) as [v Q]. exists v. apply (sv_source params i d s v Hd), Q.
        - intros H e I. apply in_embedded in I as [I C]. apply svs_defined. intros s Is. destruct (H e I C s Is) as [v Q]. exists v. apply (sv_source params i d s v Hd), Q. }
      destruct (embed_exprs E V eqE free fn reshape one params d (embedded_exprs E is_number is_array uniqE uuid_to_expr) []) as [acc|].
      - rewrite (embed_consts_defined params). split.
        + intros H. split; [apply D1'; eexists; reflexivity|]. intros e I C Q. destruct (H e (proj2 (in_consts e) (conj I C))). congruence.
        + intros [_ H] e I. apply in_consts in I as [I C]. specialize (H e I C). destruct (get params (strfy e)); [eexists; reflexivity|tauto].
      - split; [intros [? Q]; discriminate|]. intros [H _]. apply D1' in H as [? Q]. discriminate. }
    split.
    - intros [g H]. split; [eexists; reflexivity|]. apply Em. destruct (emb params d) as [r|]; [eexists; reflexivity|discriminate].
    - intros [_ H]. apply Em in H as [r R]. rewrite R. apply gate_entries_defined. intros e I. destruct (embedded_spec params i d r Hd R e I) as (v & G & _). congruence.
  Qed.

  (** * Constants *)
  (** When the block's constants have names of their own, the parameters returned by [embedding] hold each constant's value, also after
      the caller has changed the variational parameters. *)
  Theorem C20_constants : forall params e, In e (map snd uuid_to_expr) -> constant e ->
    (forall e', In e' (map snd uuid_to_expr) -> constant e' -> strfy e' = strfy e -> e' = e) ->
    (forall e', In e' (map snd uuid_to_expr) -> constant e' -> get params (strfy e') = get init (strfy e')) ->
    get params (strfy e) = Some (if is_array e then array_value e else const_value e).
  Proof.
    intros params e I C U P. rewrite (P e I C). unfold initial_params. rewrite !get_update.
    assert (G : forall (f : E -> V) l, (forall x, In x l -> In x (map snd uuid_to_expr) /\ constant x) -> get (rev (map (fun x => (strfy x, f x)) l)) (strfy e) = if in_dec eqE e l then Some (f e) else None).
    { intros f l Hl. destruct (in_dec eqE e l) as [J|J].
      - destruct (get (rev (map (fun x => (strfy x, f x)) l)) (strfy e)) as [v|] eqn:Q.
        + apply get_In, in_rev, in_map_iff in Q as (x & Q & Ix). injection Q as Q1 Q2. destruct (Hl x Ix) as [H1 H2]. rewrite <- Q2. f_equal. f_equal. apply U; assumption.
        + exfalso. apply get_none in Q. apply Q. rewrite map_rev, <- in_rev, map_map. apply (in_map (fun x => strfy x)), J.
      - apply get_none. intros Q. rewrite map_rev, <- in_rev, map_map in Q. apply in_map_iff in Q as (x & Q & Ix). simpl in Q. destruct (Hl x Ix) as [H1 H2]. apply U in Q; [subst; tauto|exact H1|exact H2]. }
    rewrite (G array_value), (G const_value).
    - unfold constant_expressions, unique_expressions, unique_const_matrices. destruct (is_array e) eqn:A.
      + destruct (in_dec eqE e _) as [J|J]; [reflexivity|]. exfalso. apply J. apply filter_In. split; [apply HuE, I|exact A].
      + destruct (in_dec eqE e (filter is_array _)) as [J|_]; [apply filter_In in J as [_ J]; congruence|].
        destruct (in_dec eqE e _) as [J|J]; [reflexivity|]. exfalso. apply J. apply filter_In. split; [|destruct C; congruence]. apply filter_In. split; [apply HuE, I|rewrite A; reflexivity].
    - intros x Ix. apply in_consts. apply in_app_iff. left. exact Ix.
    - intros x Ix. apply in_consts. apply in_app_iff. right. exact Ix.
  Qed.

  (** * Expression level *)
  Lemma nodup_set (d : sdict V) k v : NoDup (map fst d) -> NoDup (map fst (set d k v)).
  Proof.
    assert (K : forall d x, In x (map fst (set d k v)) -> x = k \/ In x (map fst d)).
    { induction d0 as [|[a w] d0 IH]; intros x; simpl; [intros [H|[]]; left; congruence|]. destruct (String.eqb a k); simpl; [tauto|]. intros [H|H]; [tauto|]. apply IH in H. tauto. }
    induction d as [|[a w] d IH]; intros N; simpl; [constructor; [tauto|constructor]|]. inversion N as [|? ? X Y]; subst.
    destruct (String.eqb_spec a k) as [Q|Q]; simpl; [constructor; assumption|]. constructor; [|apply IH, Y]. intros H. apply K in H. tauto.
  Qed.
  Lemma nodup_update (m d : sdict V) : NoDup (map fst d) -> NoDup (map fst (update d m)).
  Proof. revert d. induction m as [|[a w] m IH]; intros d N; [exact N|]. unfold update. simpl. apply IH, nodup_set, N. Qed.
  Lemma nodup_effective i d : dicts i -> effective_inputs V i = Some d -> NoDup (map fst d).
  Proof.
    destruct i as [f|l]; simpl.
    - intros N. destruct (_ || _); [discriminate|]. intros H. injection H as <-. exact N.
    - intros _. destruct (existsb _ l); [|discriminate]. intros H. injection H as <-. unfold merge_separate_params.
      assert (G : forall l acc, NoDup (map fst acc) -> NoDup (map fst (fold_left (fun (a : sdict V) (p : string * sdict V) => update a (snd p)) l acc))).
      { induction l0 as [|p l0 IH]; intros acc N; [exact N|]. simpl. apply IH, nodup_update, N. }
      apply G. constructor.
  Qed.
  Lemma eset_get_in r : forall e v, In (e, v) r -> NoDup (map fst r) -> eget E V eqE r e = Some v.
  Proof.
    induction r as [|[a w] r IH]; intros e v I N; [destruct I|]. inversion N as [|? ? X Y]; subst. simpl. destruct I as [I|I].
    - injection I as -> ->. destruct (eqE e e); [reflexivity|tauto].
    - destruct (eqE a e) as [->|Q]; [|apply IH; assumption]. exfalso. apply X. apply (in_map fst) in I. exact I.
  Qed.
  Lemma eget_in r e v : eget E V eqE r e = Some v -> In (e, v) r.
  Proof. induction r as [|[a w] r IH]; simpl; [discriminate|]. destruct (eqE a e) as [->|Q]; [intros H; injection H as ->; left; reflexivity|right; apply IH; assumption]. Qed.
  Lemma nodup_eset (d : edict E V) k v : NoDup (map fst d) -> NoDup (map fst (eset E V eqE d k v)).
  Proof.
    assert (K : forall d x, In x (map fst (eset E V eqE d k v)) -> x = k \/ In x (map fst d)).
    { induction d0 as [|[a w] d0 IH]; intros x; simpl; [intros [H|[]]; left; congruence|]. destruct (eqE a k); simpl; [tauto|]. intros [H|H]; [tauto|]. apply IH in H. tauto. }
    induction d as [|[a w] d IH]; intros N; simpl; [constructor; [tauto|constructor]|]. inversion N as [|? ? X Y]; subst.
    destruct (eqE a k) as [Q|Q]; simpl; [constructor; assumption|]. constructor; [|apply IH, Y]. intros H. apply K in H as [H|H]; tauto.
  Qed.
  Lemma nodup_embedded params d r : emb params d = Some r -> NoDup (map fst r).
  Proof.
    unfold embedded. destruct (embed_exprs E V eqE free fn reshape one params d _ []) as [acc|] eqn:A; [|discriminate]. intros H.
    assert (K1 : forall l acc r, embed_exprs E V eqE free fn reshape one params d l acc = Some r -> NoDup (map fst acc) -> NoDup (map fst r)).
    { induction l as [|e0 l IH]; intros ac r0 H0 N; simpl in H0; [injection H0 as <-; exact N|]. destruct (symbol_values _ _ _ _ _ _); [|discriminate]. apply (IH _ _ H0), nodup_eset, N. }
    assert (K2 : forall l acc r, embed_consts E V eqE is_number is_array str_of hash_of array_str params l acc = Some r -> NoDup (map fst acc) -> NoDup (map fst r)).
    { induction l as [|e0 l IH]; intros ac r0 H0 N; simpl in H0; [injection H0 as <-; exact N|]. destruct (get _ _); [|discriminate]. apply (IH _ _ H0), nodup_eset, N. }
    apply (K2 _ _ _ H), (K1 _ _ _ A). constructor.
  Qed.

  (** The dictionary given to the backend: inputs as given, then variational parameters, then the value of each symbolic expression of the
      block under its name (as long as no two expressions share it and it is not the name of an input or a parameter); nothing else. *)
  Theorem C20_expression_level : forall params i out, dicts i -> NoDup (map fst params) -> expr_fn params i = Some out ->
    (forall k v, input_value i k = Some v -> get out k = Some (expand v)) /\
    (forall k v, input_value i k = None -> get params k = Some v -> get out k = Some (expand v)) /\
    (forall e, In e (map snd uuid_to_expr) -> input_value i (strfy e) = None -> get params (strfy e) = None ->
       (forall e', In e' (map snd uuid_to_expr) -> strfy e' = strfy e -> e' = e) ->
       exists v, get out (strfy e) = Some (expand v) /\ value params i e v) /\
    (forall k, get out k <> None -> input_value i k <> None \/ get params k <> None \/ exists e, In e (map snd uuid_to_expr) /\ strfy e = k).
  Proof.
    intros params i out Di Np H. unfold embedding_expr in H. destruct (effective_inputs V i) as [d|] eqn:Ef; [|discriminate].
    destruct (emb params d) as [r|] eqn:R; [|discriminate]. injection H as <-. pose proof (effective_spec i d Di Ef) as Hd. pose proof (nodup_effective i d Di Ef) as Nd.
    set (L1 := map (fun ev => (strfy (fst ev), expand (snd ev))) r).
    assert (G : forall k, get (update [] (L1 ++ map (fun kv => (fst kv, expand (snd kv))) (update [] d) ++ map (fun kv => (fst kv, expand (snd kv))) (filter (fun kv => negb (has d (fst kv))) params))) k =
      match get d k with Some v => Some (expand v) | None => match get params k with Some v => Some (expand v) | None => get (rev L1) k end end).
    { intros k. rewrite get_update, !rev_app_distr, !get_app. simpl (get [] k).
      assert (P : get (rev (map (fun kv => (fst kv, expand (snd kv))) (filter (fun kv => negb (has d (fst kv))) params))) k = if has d k then None else option_map expand (get params k)).
      { rewrite get_rev.
        - rewrite (get_map_val expand). clear - d. induction params as [|[a w] p IH]; simpl; [destruct (has d k); reflexivity|]. destruct (has d a) eqn:A; simpl.
          + rewrite IH. destruct (String.eqb_spec a k) as [->|Q]; [rewrite A; reflexivity|reflexivity].
          + destruct (String.eqb_spec a k) as [->|Q]; [rewrite A; reflexivity|exact IH].
        - rewrite map_map. simpl. clear - Np. induction params as [|[a w] p IH]; [constructor|]. inversion Np as [|? ? X Y]; subst. simpl. destruct (negb (has d a)); simpl; [|apply IH, Y].
          constructor; [|apply IH, Y]. intros Q. apply X. apply in_map_iff in Q as (x & Q & I). apply filter_In in I as [I _]. rewrite <- Q. apply in_map, I. }
      assert (P2 : get (rev (map (fun kv => (fst kv, expand (snd kv))) (update [] d))) k = option_map expand (get d k)).
      { rewrite get_rev.
        - rewrite (get_map_val expand), get_update, get_rev by exact Nd. destruct (get d k); reflexivity.
        - rewrite map_map. apply nodup_update. constructor. }
      rewrite P, P2. unfold has. destruct (get d k) as [v|]; [reflexivity|]. destruct (get params k); [reflexivity|]. simpl. destruct (get (rev L1) k); reflexivity. }
    split; [intros k v Q; rewrite G, Hd, Q; reflexivity|]. split; [intros k v Q1 Q2; rewrite G, Hd, Q1, Q2; reflexivity|]. split.
    - intros e I N1 N2 U. destruct (embedded_spec params i d r Hd R e I) as (v & Gv & C & S). exists v. split.
      + rewrite G, Hd, N1, N2. unfold L1.
        assert (J : get (rev (map (fun ev => (strfy (fst ev), expand (snd ev))) r)) (strfy e) <> None).
        { rewrite get_none, map_rev, <- in_rev, map_map. intros Q. apply Q. apply in_map_iff. exists (e, v). split; [reflexivity|apply eget_in, Gv]. }
        fold L1 in J |- *. destruct (get (rev L1) (strfy e)) as [w|] eqn:Q; [|tauto]. apply get_In, in_rev, in_map_iff in Q as ([e' v'] & Q & Ir). injection Q as Q1 Q2. simpl in Q1, Q2.
        assert (e' = e) by (apply U; [apply (embedded_keys params d r R e' v' Ir)|exact Q1]). subst e'. rewrite (eset_get_in r e v' Ir (nodup_embedded params d r R)) in Gv. congruence.
      + apply S. intros Cn. rewrite (C Cn) in N2. discriminate.
    - intros k Q. rewrite G, Hd in Q. destruct (input_value i k); [left; discriminate|]. destruct (get params k); [right; left; discriminate|]. right; right.
      destruct (get (rev L1) k) as [w|] eqn:Z; [|tauto]. apply get_In, in_rev, in_map_iff in Z as ([e v] & Z & I). injection Z as Z1 Z2. exists e. split; [apply (embedded_keys params d r R e v I)|exact Z1].
  Qed.
  (** The parameters handed to the caller are exactly the trainable symbols of the block, with their initial values, and its constants;
      feature parameters are not among them. *)
  Theorem C20_initial_params :
    (forall k, get init k <> None <->
       (exists e s, In e (map snd uuid_to_expr) /\ In s (free e) /\ s_trainable s = true /\ s_name s = k) \/
       (exists e, In e (map snd uuid_to_expr) /\ constant e /\ strfy e = k)) /\
    (forall e s, In e (map snd uuid_to_expr) -> In s (free e) -> s_trainable s = true ->
       (forall e' s', In e' (map snd uuid_to_expr) -> In s' (free e') -> s_trainable s' = true -> s_name s' = s_name s -> s_value s' = s_value s) ->
       (forall e', In e' (map snd uuid_to_expr) -> constant e' -> strfy e' <> s_name s) ->
       get init (s_name s) = Some (concretize (s_value s))).
  Proof.
    assert (T : forall s, In s (trainable_symbols E V free uniqS uuid_to_expr) <->
      exists e, In e (map snd uuid_to_expr) /\ In s (free e) /\ s_trainable s = true).
    { intros s. unfold trainable_symbols. rewrite filter_In, HuS, in_flat_map. firstorder. }
    set (L1 := map (fun p => (s_name p, concretize (s_value p))) (trainable_symbols E V free uniqS uuid_to_expr)).
    set (L2 := map (fun e => (strfy e, const_value e)) (constant_expressions E is_number is_array uniqE uuid_to_expr)).
    set (L3 := map (fun e => (strfy e, array_value e)) (unique_const_matrices E is_array uniqE uuid_to_expr)).
    assert (G : forall k, get init k = match get (rev L3) k with Some v => Some v | None => match get (rev L2) k with Some v => Some v | None => get (rev L1) k end end).
    { intros k. unfold initial_params. fold L1 L2 L3. rewrite !get_update. destruct (get (rev L3) k); [reflexivity|]. destruct (get (rev L2) k); [reflexivity|]. destruct (get (rev L1) k); reflexivity. }
    assert (K1 : forall k, get (rev L1) k <> None <-> exists e s, In e (map snd uuid_to_expr) /\ In s (free e) /\ s_trainable s = true /\ s_name s = k).
    { intros k. rewrite get_none, map_rev, <- in_rev. unfold L1. rewrite map_map. cbn [fst]. split.
      - intros Q. destruct (in_dec string_dec k (map s_name (trainable_symbols E V free uniqS uuid_to_expr))) as [J|J]; [|exfalso; apply Q; exact J].
        apply in_map_iff in J as (s & Es & Is). apply T in Is as (e & I1 & I2 & I3). exists e, s. auto.
      - intros (e & s & I1 & I2 & I3 & I4) Q. apply Q. apply in_map_iff. exists s. split; [exact I4|]. apply T. exists e. auto. }
    assert (K2 : forall k, get (rev L3) k = None /\ get (rev L2) k = None <-> ~ exists e, In e (map snd uuid_to_expr) /\ constant e /\ strfy e = k).
    { intros k. rewrite !get_none, !map_rev, <- !in_rev. unfold L2, L3. rewrite !map_map. cbn [fst]. split.
      - intros [Q1 Q2] (e & I1 & I2 & I3). assert (J := proj2 (in_consts e) (conj I1 I2)). apply in_app_iff in J as [J|J]; [apply Q2|apply Q1]; apply in_map_iff; exists e; auto.
      - intros Q. split; intros J; apply in_map_iff in J as (e & J1 & J2); apply Q; exists e.
        + destruct (proj1 (in_consts e) (in_or_app _ _ _ (or_intror J2))) as [I1 I2]. auto.
        + destruct (proj1 (in_consts e) (in_or_app _ _ _ (or_introl J2))) as [I1 I2]. auto. }
    split.
    - intros k. rewrite G. split.
      + intros Q. destruct (get (rev L3) k) as [v|] eqn:E3; [|destruct (get (rev L2) k) as [v|] eqn:E2].
        * right. assert (J : In k (map fst L3)) by (apply get_In, in_rev in E3; apply (in_map fst) in E3; exact E3). unfold L3 in J. rewrite map_map in J. cbn [fst] in J.
          apply in_map_iff in J as (e & J1 & J2). exists e. destruct (proj1 (in_consts e) (in_or_app _ _ _ (or_intror J2))) as [I1 I2]. auto.
        * right. assert (J : In k (map fst L2)) by (apply get_In, in_rev in E2; apply (in_map fst) in E2; exact E2). unfold L2 in J. rewrite map_map in J. cbn [fst] in J.
          apply in_map_iff in J as (e & J1 & J2). exists e. destruct (proj1 (in_consts e) (in_or_app _ _ _ (or_introl J2))) as [I1 I2]. auto.
        * left. apply K1. exact Q.
      + intros [Q|Q].
        * apply K1 in Q. destruct (get (rev L3) k); [discriminate|]. destruct (get (rev L2) k); [discriminate|]. exact Q.
        * destruct (get (rev L3) k) eqn:E3; [discriminate|]. destruct (get (rev L2) k) eqn:E2; [discriminate|]. exfalso. apply (proj1 (K2 k) (conj E3 E2)). exact Q.
    - intros e s I1 I2 I3 U NC. rewrite G.
      destruct (proj2 (K2 (s_name s))) as [-> ->]; [intros (e' & J1 & J2 & J3); exact (NC e' J1 J2 J3)|].
      assert (N : get (rev L1) (s_name s) <> None) by (apply K1; exists e, s; auto).
      destruct (get (rev L1) (s_name s)) as [v|] eqn:Q; [|congruence]. apply get_In, in_rev in Q. unfold L1 in Q. apply in_map_iff in Q as (s' & Q & J).
      injection Q as Q1 <-. apply T in J as (e' & J1 & J2 & J3). rewrite (U e' s' J1 J2 J3 Q1). reflexivity.
  Qed.
End T.

(** * Two gates that receive the same constant *)
(** CPython's hash of an integer (sys.hash_info.modulus = 2^61 - 1; -1 is reserved and replaced by -2). *)
Definition py_hash (n : Z) : Z :=
  let m := (Z.sgn n * (Z.abs n mod (2 ^ 61 - 1)))%Z in if Z.eqb m (-1) then (-2)%Z else m.
Inductive ex := Num (z : Z) | Name (s : symbol Z).
Definition ex_eq (a b : ex) : {a = b} + {a <> b}.
Proof. decide equality; [apply Z.eq_dec|]. decide equality; try apply Z.eq_dec; try apply Bool.bool_dec; apply String.string_dec. Defined.
Definition ex_free (e : ex) := match e with Num _ => [] | Name s => [s] end.
Definition ex_num (e : ex) := match e with Num _ => true | Name _ => false end.
Definition ex_val (e : ex) : Z := match e with Num z => z | Name _ => 0%Z end.
Definition ex_str (e : ex) := match e with Name s => s_name s | Num _ => "" end.
Definition ex_fn (e : ex) (kw : sdict Z) : Z := match e with Num z => z | Name s => match get kw (s_name s) with Some v => v | None => 0%Z end end.
Definition ex_sym_eq (a b : symbol Z) : {a = b} + {a <> b}.
Proof. decide equality; try apply Z.eq_dec; try apply Bool.bool_dec; apply String.string_dec. Defined.

Lemma collision hash_of : hash_of (Num (-1)) = hash_of (Num (-2)) ->
  let block := [("u1", Num (-1)); ("u2", Num (-2))] in
  let init := initial_params ex Z ex_free ex_num (fun _ => false) ex_str hash_of (fun _ => "") ex_val ex_val (fun v => v) (nodup ex_eq) (nodup ex_sym_eq) block in
  exists g v, embedding_gate ex Z ex_eq ex_free ex_num (fun _ => false) ex_str hash_of (fun _ => "") ex_fn (fun v => v) 1%Z (nodup ex_eq) block init (Flat []) = Some g /\
    get g "u1" = Some v /\ get g "u2" = Some v.
Proof.
  intros H block init. assert (I : init = [("fix_" ++ hash_of (Num (-2)), (-2)%Z)]%string).
  { unfold init. cbv -[append String.eqb]. rewrite H. simpl. rewrite String.eqb_refl. reflexivity. }
  exists [("u1", (-2)%Z); ("u2", (-2)%Z)], (-2)%Z. split; [|split; reflexivity]. rewrite I. clear I init. unfold block.
  cbv -[append String.eqb]. rewrite H. simpl. rewrite String.eqb_refl. reflexivity.
Qed.
(** Two gates with the constant angles -1 and -2 receive the same angle, because hash(-1) = hash(-2). *)
Theorem C20_constants_refuted : forall zstr : Z -> string,
  let hash_of e := zstr (py_hash (ex_val e)) in
  let block := [("u1", Num (-1)); ("u2", Num (-2))] in
  let init := initial_params ex Z ex_free ex_num (fun _ => false) ex_str hash_of (fun _ => "") ex_val ex_val (fun v => v) (nodup ex_eq) (nodup ex_sym_eq) block in
  exists g v, embedding_gate ex Z ex_eq ex_free ex_num (fun _ => false) ex_str hash_of (fun _ => "") ex_fn (fun v => v) 1%Z (nodup ex_eq) block init (Flat []) = Some g /\
    get g "u1" = Some v /\ get g "u2" = Some v.
Proof. intros zstr hash_of block init. apply collision. reflexivity. Qed.
(** A dot in a name becomes an underscore in the backend's dictionary: the gate with Parameter("a.b") reads the value of "a_b". *)
Theorem C20_dot_refuted :
  let s1 := Sym "a.b" false false 0%Z in let s2 := Sym "a_b" false false 0%Z in
  let block := [("u1", Name s1); ("u2", Name s2)] in
  let name := stringify ex ex_num (fun _ => false) ex_str (fun _ => "") (fun _ => "") in
  exists out, embedding_expr ex Z ex_eq ex_free ex_num (fun _ => false) ex_str (fun _ => "") (fun _ => "") ex_fn (fun v => v) (fun v => v) 1%Z (nodup ex_eq) block [] (Flat [("a.b", 10%Z); ("a_b", 20%Z)]) = Some out /\
    get out (name (Name s1)) = Some 20%Z /\ get out (name (Name s2)) = Some 20%Z.
Proof. eexists. split; [reflexivity|]. split; reflexivity. Qed.

(** * Examples *)
Example ex_inputs_first :
  let x := Sym "x" true false 7%Z in let t := Sym "t" false true 0%Z in
  embedding_gate ex Z ex_eq ex_free ex_num (fun _ => false) ex_str (fun _ => "c") (fun _ => "") ex_fn (fun v => v) 1%Z (nodup ex_eq)
    [("u1", Name x); ("u2", Num 5); ("u3", Name t)] [("x", 7%Z); ("fix_c", 5%Z)] (Nested [("circuit", [("x", 3%Z)]); ("observables", [("x", 4%Z)])])
  = Some [("u1", 4%Z); ("u2", 5%Z); ("u3", 1%Z)].
Proof. reflexivity. Qed.
Example ex_missing :
  embedding_gate ex Z ex_eq ex_free ex_num (fun _ => false) ex_str (fun _ => "c") (fun _ => "") ex_fn (fun v => v) 1%Z (nodup ex_eq)
    [("u1", Name (Sym "x" true false 7%Z))] [] (Flat [("y", 1%Z)]) = None.
Proof. reflexivity. Qed.

Print Assumptions C20_initial_params.
Print Assumptions C20_gate_level.
Print Assumptions C20_defined.
Print Assumptions C20_constants.
Print Assumptions C20_expression_level.
Print Assumptions C20_constants_refuted.
Print Assumptions C20_dot_refuted.
