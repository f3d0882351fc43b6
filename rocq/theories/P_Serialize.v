(** C44: what survives [serialize] followed by [deserialize]. *)
From Coq Require Import String List Ascii Bool Arith Lia.
From Coq Require Import List.
From Verif Require Import S_Grammar M_Grammar L_Grammar M_Tensor M_Transpile M_Serialize P_Grammar L_Serialize.
From Verif Require M_Noise.
Import ListNotations.
Open Scope string_scope.
Open Scope nat_scope.
Open Scope list_scope.

(** * Expressions *)
Section eind.
  Variable P : sexpr -> Prop.
  Hypothesis H1 : forall k, P (SInt k).
  Hypothesis H2 : forall p q, P (SRat p q).
  Hypothesis H3 : forall d p, P (SFloat d p).
  Hypothesis H4 : forall n, P (SName n).
  Hypothesis H5 : forall s, P (SSym s).
  Hypothesis H6 : forall f args, Forall P args -> P (SApp f args).
  Fixpoint sexpr_ind' (e : sexpr) : P e :=
    match e with
    | SInt k => H1 k | SRat p q => H2 p q | SFloat d p => H3 d p | SName n => H4 n | SSym s => H5 s
    | SApp f args => H6 f args ((fix go l : Forall P l := match l with [] => Forall_nil _ | x :: r => Forall_cons x (sexpr_ind' x) (go r) end) args)
    end.
End eind.

(** Specification: the expressions that can be stored.  No bare constant (pi, I, E); no number printed with an exponent;
    Parameters only, whose name is a word and whose keywords are letters only. *)
Definition constructors : list text := map txt ["Integer"; "Rational"; "Float"; "Parameter"; "Symbol"].
Fixpoint storable (e : sexpr) : Prop :=
  match e with
  | SInt k => integer k
  | SRat p q => integer p /\ integer q
  | SFloat d p => (number d \/ word d) /\ integer p
  | SName _ => False
  | SSym s => sy_param s = true /\ (number (sy_name s) \/ word (sy_name s)) /\ Forall (fun kb => keyword (fst kb)) (sy_kw s)
  | SApp f args => ident f /\ ~ In f constructors /\ args <> [] /\ (fix all l := match l with [] => True | x :: r => storable x /\ all r end) args
  end.
(** Every sympy expression over Parameters: numbers print as integers or digits, names are identifiers. *)
Fixpoint sympy_expr (e : sexpr) : Prop :=
  match e with
  | SInt k => integer k
  | SRat p q => integer p /\ integer q
  | SFloat _ p => integer p
  | SName n => ident n
  | SSym s => Forall (fun kb => pyident (fst kb)) (sy_kw s)
  | SApp f args => ident f /\ ~ In f constructors /\ (fix all l := match l with [] => True | x :: r => sympy_expr x /\ all r end) args
  end.
(** Two parameters of the same name have the same value (sympy caches symbols, so this is what one normally has). *)
Definition values_by_name (e : sexpr) : Prop := forall s t, In s (free_symbols e) -> In t (free_symbols e) -> sy_name s = sy_name t -> sy_value s = sy_value t.
Definition set_enumeration (ord : list symbol -> list symbol) : Prop := forall l x, In x (ord l) <-> In x l.

Lemma storable_all : forall args, (fix all l := match l with [] => True | x :: r => storable x /\ all r end) args <-> Forall storable args.
Proof. induction args as [|a r IH]; [split; [constructor|auto]|]. rewrite IH. split; [intros [A B]; constructor; assumption|intros F; inversion F; auto]. Qed.
Lemma sympy_all : forall args, (fix all l := match l with [] => True | x :: r => sympy_expr x /\ all r end) args <-> Forall sympy_expr args.
Proof. induction args as [|a r IH]; [split; [constructor|auto]|]. rewrite IH. split; [intros [A B]; constructor; assumption|intros F; inversion F; auto]. Qed.

Lemma ident_txt : forall k : text, match k with c :: r => alpha c && forallb idchar r | [] => false end = true -> ident k.
Proof. intros k. destruct k as [|c r] eqn:E; [discriminate|]. intros H. apply andb_true_iff in H. exists c, r. intuition. Qed.
Lemma keyword_txt : forall k : text, match k with c :: r => lower c && forallb alpha r | [] => false end = true -> keyword k.
Proof. intros k. destruct k as [|c r] eqn:E; [discriminate|]. intros H. apply andb_true_iff in H. exists c, r. intuition. Qed.

Lemma storable_accepted : forall e, storable e -> accepted (printed_of e).
Proof.
  apply (sexpr_ind' (fun e => storable e -> accepted (printed_of e))); cbn [storable printed_of].
  - intros k K. cbn. split; [apply ident_txt; reflexivity|]. split; [discriminate|auto].
  - intros p q [P Q]. cbn. split; [apply ident_txt; reflexivity|]. split; [discriminate|auto].
  - intros d p [D P]. cbn [accepted]. split; [apply ident_txt; reflexivity|]. split; [discriminate|]. split; [exact D|].
    split; [|exact I]. split; [apply keyword_txt; reflexivity|exact P].
  - intros n [].
  - intros s [Pa [N K]]. rewrite Pa. cbn [accepted]. split; [apply ident_txt; reflexivity|]. split; [discriminate|]. split; [exact N|].
    apply accepted_all. apply Forall_map. exact K.
  - intros f args H [If [Nf [Ne A]]]. apply storable_all in A. cbn [accepted]. split; [exact If|]. split; [destruct args; [congruence|discriminate]|].
    apply accepted_all. apply Forall_map. rewrite Forall_forall in *. intros x Ix. exact (H x Ix (A x Ix)).
Qed.
Lemma sympy_sane : forall e, sympy_expr e -> sane (printed_of e).
Proof.
  apply (sexpr_ind' (fun e => sympy_expr e -> sane (printed_of e))); cbn [sympy_expr printed_of].
  - intros k K. cbn. split; [apply ident_txt; reflexivity|auto].
  - intros p q [P Q]. cbn. split; [apply ident_txt; reflexivity|auto].
  - intros d p P. cbn [sane]. split; [apply ident_txt; reflexivity|]. split; [exact I|]. split; [|exact I]. split; [apply keyword_txt; reflexivity|exact P].
  - intros n K. exact K.
  - intros s K. cbn [sane]. split; [destruct (sy_param s); apply ident_txt; reflexivity|]. split; [exact I|].
    apply sane_all. apply Forall_map. exact K.
  - intros f args H [If [Nf A]]. apply sympy_all in A. cbn [sane]. split; [exact If|].
    apply sane_all. apply Forall_map. rewrite Forall_forall in *. intros x Ix. exact (H x Ix (A x Ix)).
Qed.

Fixpoint refresh (fresh : string) (e : sexpr) : sexpr :=
  match e with
  | SSym s => SSym {| sy_param := sy_param s; sy_name := sy_name s; sy_kw := sy_kw s; sy_value := fresh |}
  | SApp f args => SApp f (map (refresh fresh) args)
  | e => e
  end.
Lemma oseq_map_some : forall {A B} (f : A -> option B) (g : A -> B) l, Forall (fun x => f x = Some (g x)) l -> osequence (map f l) = Some (map g l).
Proof. intros A B f g l H. induction H as [|x l E H IH]; [reflexivity|]. cbn. rewrite E, IH. reflexivity. Qed.
Lemma oseq_in : forall {A B} (f : A -> option B) l r, osequence (map f l) = Some r -> forall x, In x l -> exists y, f x = Some y.
Proof.
  intros A B f l. induction l as [|x l IH]; cbn; intros r E z I; [contradiction|]. destruct (f x) as [y|] eqn:Fx; [|discriminate].
  destruct (osequence (map f l)) as [r'|]; [|discriminate]. destruct I as [<-|I]; [exists y; exact Fx|exact (IH r' eq_refl z I)].
Qed.
Lemma eval_printed : forall fresh e, storable e -> eval_call fresh (to_call (printed_of e)) = Some (refresh fresh e).
Proof.
  intros fresh. apply (sexpr_ind' (fun e => storable e -> eval_call fresh (to_call (printed_of e)) = Some (refresh fresh e))); cbn [storable printed_of].
  - reflexivity.
  - reflexivity.
  - reflexivity.
  - intros n [].
  - intros s [Pa [N K]]. rewrite Pa. cbn [to_call map eval_call]. rewrite map_map.
    destruct (list_eq_dec ascii_dec (txt "Parameter") (txt "Integer")); [discriminate|].
    destruct (list_eq_dec ascii_dec (txt "Parameter") (txt "Rational")); [discriminate|].
    destruct (list_eq_dec ascii_dec (txt "Parameter") (txt "Float")); [discriminate|].
    destruct (list_eq_dec ascii_dec (txt "Parameter") (txt "Parameter")); [|congruence].
    rewrite map_map. rewrite (oseq_map_some _ (fun kb => kb)), map_id; [cbn; rewrite Pa; reflexivity|].
    apply Forall_forall. intros [k b] _. reflexivity.
  - intros f args H [If [Nf [Ne A]]]. apply storable_all in A. cbn [to_call eval_call].
    destruct (list_eq_dec ascii_dec f (txt "Integer")) as [->|_]; [exfalso; apply Nf; cbn; auto|].
    destruct (list_eq_dec ascii_dec f (txt "Rational")) as [->|_]; [exfalso; apply Nf; cbn; auto|].
    destruct (list_eq_dec ascii_dec f (txt "Float")) as [->|_]; [exfalso; apply Nf; cbn; auto|].
    destruct (list_eq_dec ascii_dec f (txt "Parameter")) as [->|_]; [exfalso; apply Nf; cbn; auto|].
    rewrite !map_map. rewrite (oseq_map_some _ (refresh fresh)); [reflexivity|]. rewrite Forall_forall in *. intros x Ix. exact (H x Ix (A x Ix)).
Qed.
Lemma tlookup_in : forall k (l : list (text * symdict)) v acc, (forall d, In (k, d) l -> sd_value d = v) -> (forall d, acc = Some d -> sd_value d = v) ->
  (acc <> None \/ exists d, In (k, d) l) ->
  exists d, fold_left (fun acc kv => if list_eq_dec ascii_dec (fst kv) k then Some (snd kv) else acc) l acc = Some d /\ sd_value d = v.
Proof.
  intros k l v. induction l as [|[k' d'] l IH]; intros acc Hl Ha X; cbn [fold_left].
  - destruct acc as [d|]; [exists d; auto|]. destruct X as [X|[d []]]. congruence.
  - cbn [fst snd]. apply IH.
    + intros d I. apply Hl. right. exact I.
    + destruct (list_eq_dec ascii_dec k' k) as [->|N]; [|exact Ha]. intros d E. injection E as <-. apply Hl. left. reflexivity.
    + destruct (list_eq_dec ascii_dec k' k) as [->|N]; [left; discriminate|]. destruct X as [X|[d [E|I]]]; [left; exact X|congruence|right; exists d; exact I].
Qed.
Lemma assign_refresh : forall fresh l e, storable e -> (forall s, In s (free_symbols e) -> exists d, tlookup (sy_name s) l = Some d /\ sd_value d = sy_value s) ->
  assign (Some l) (refresh fresh e) = Some e.
Proof.
  intros fresh l. apply (sexpr_ind' (fun e => storable e -> (forall s, In s (free_symbols e) -> exists d, tlookup (sy_name s) l = Some d /\ sd_value d = sy_value s) ->
    assign (Some l) (refresh fresh e) = Some e)); try reflexivity.
  - intros s [Pa _] H. cbn. destruct (H s (or_introl eq_refl)) as [d [E V]]. rewrite E, V. destruct s; reflexivity.
  - intros f args H St X. cbn in St. destruct St as [_ [_ [_ A]]]. apply storable_all in A. cbn [refresh assign]. rewrite map_map.
    rewrite (oseq_map_some _ (fun x => x)), map_id; [reflexivity|]. rewrite Forall_forall in *. intros x Ix. apply (H x Ix (A x Ix)).
    intros s Is. apply X. cbn. apply in_flat_map. exists x. auto.
Qed.
Lemma assign_none : forall fresh e d, storable e -> free_symbols e = [] -> assign d (refresh fresh e) = Some e.
Proof.
  intros fresh e d. revert e. apply (sexpr_ind' (fun e => storable e -> free_symbols e = [] -> assign d (refresh fresh e) = Some e)); try reflexivity.
  - discriminate.
  - intros f args H St E. cbn in St. destruct St as [_ [_ [_ A]]]. apply storable_all in A. cbn [refresh assign]. rewrite map_map.
    rewrite (oseq_map_some _ (fun x => x)), map_id; [reflexivity|]. rewrite Forall_forall in *. intros x Ix. apply (H x Ix (A x Ix)).
    cbn in E. destruct (free_symbols x) as [|s r] eqn:F; [reflexivity|]. assert (In s (flat_map free_symbols args)) by (apply in_flat_map; exists x; rewrite F; cbn; auto).
    rewrite E in H0. contradiction.
Qed.
Lemma storable_params : forall e s, storable e -> In s (free_symbols e) -> sy_param s = true.
Proof.
  intros e s. revert e. apply (sexpr_ind' (fun e => storable e -> In s (free_symbols e) -> sy_param s = true)); try (cbn; tauto).
  - intros t [Pa _] [<-|[]]. exact Pa.
  - intros f args H St I. cbn in St. destruct St as [_ [_ [_ A]]]. apply storable_all in A. cbn in I. apply in_flat_map in I. destruct I as [x [Ix I]].
    rewrite Forall_forall in *. exact (H x Ix (A x Ix) I).
Qed.
Lemma printed_app : forall e, storable e -> is_app (printed_of e).
Proof. intros [| | | | |]; cbn; auto. Qed.

Theorem C44_expression : forall ord fresh e, set_enumeration ord -> storable e -> values_by_name e ->
  exists d, serialize_expr ord e = Some d /\ deserialize_expr fresh d = Some e.
Proof.
  intros ord fresh e Ho St Va. assert (P : parse (srepr e) = Some (to_call (printed_of e))) by exact (accepted_parse _ (printed_app e St) (storable_accepted e St)).
  unfold serialize_expr. destruct (ord (free_symbols e)) as [|s0 r] eqn:Eo.
  - eexists. split; [reflexivity|]. unfold deserialize_expr. cbn [x_expression x_symbols]. rewrite P, (eval_printed fresh e St). apply assign_none; [exact St|].
    destruct (free_symbols e) as [|s r] eqn:F; [reflexivity|]. assert (X : In s (ord (free_symbols e))) by (apply Ho; rewrite F; left; reflexivity).
    rewrite F, Eo in X. contradiction.
  - set (dic := fun s => {| sd_name := sy_name s; sd_trainable := trainable s; sd_value := sy_value s |}).
    assert (Hs : forall s, In s (s0 :: r) <-> In s (free_symbols e)) by (intros s; rewrite <- Eo; apply Ho). clear Eo. revert Hs. generalize (s0 :: r). intros syms Hs.
    rewrite (oseq_map_some _ (fun s => (sy_name s, dic s))).
    2:{ apply Forall_forall. intros s Is. apply (proj1 (Hs s)) in Is. unfold sym_to_dict. rewrite (storable_params e s St Is). reflexivity. }
    eexists. split; [reflexivity|]. unfold deserialize_expr. cbn [x_expression x_symbols]. rewrite P, (eval_printed fresh e St).
    apply assign_refresh; [exact St|]. intros s Is. unfold tlookup. apply tlookup_in.
    + intros d I. apply in_map_iff in I. destruct I as [t [E It]]. apply (proj1 (Hs t)) in It. injection E as En <-. cbn. symmetry. apply (Va s t Is It). congruence.
    + discriminate.
    + right. exists (dic s). apply in_map_iff. exists s. split; [reflexivity|]. apply (proj2 (Hs s)), Is.
Qed.
(** The conditions are necessary: of the expressions sympy can hold, nothing else is ever read back. *)
Theorem C44_expression_only : forall ord fresh e d e', set_enumeration ord -> sympy_expr e -> serialize_expr ord e = Some d -> deserialize_expr fresh d = Some e' -> storable e.
Proof.
  intros ord fresh e d e' Ho Sy Se De.
  assert (X : x_expression d = srepr e /\ forall s, In s (free_symbols e) -> sy_param s = true).
  { unfold serialize_expr in Se. destruct (ord (free_symbols e)) as [|s0 r] eqn:Eo.
    - injection Se as <-. split; [reflexivity|]. intros s Is. apply (proj2 (Ho _ s)) in Is. rewrite Eo in Is. contradiction.
    - destruct (osequence _) as [l|] eqn:O; [|discriminate]. injection Se as <-. split; [reflexivity|]. intros s Is. apply (proj2 (Ho _ s)) in Is. rewrite Eo in Is.
      destruct (oseq_in _ _ _ O s Is) as [y Ey]. unfold sym_to_dict in Ey. destruct (sy_param s); [reflexivity|discriminate]. }
  destruct X as [Ex Pa]. unfold deserialize_expr in De. rewrite Ex in De.
  assert (A : accepted (printed_of e)).
  { apply (parse_printed _ (sympy_sane e Sy)). unfold parse_expr_fn. fold (srepr e). destruct (parse (srepr e)); [reflexivity|discriminate]. }
  clear - Sy Pa A. revert Sy Pa A. apply (sexpr_ind' (fun e => sympy_expr e -> (forall s, In s (free_symbols e) -> sy_param s = true) -> accepted (printed_of e) -> storable e)); cbn [sympy_expr printed_of].
  - intros k K _ _. exact K.
  - intros p q K _ _. exact K.
  - intros d p K _ A. cbn [accepted] in A. split; [apply A|exact K].
  - intros n _ _ [].
  - intros s K Pa A. cbn [accepted] in A. destruct A as [_ [_ [L A]]]. apply accepted_all in A. split; [apply Pa; left; reflexivity|]. split; [exact L|].
    rewrite Forall_map in A. exact A.
  - intros f args H [If [Nf S']] Pa A. apply sympy_all in S'. cbn [accepted] in A. destruct A as [_ [Ne A]]. apply accepted_all in A. rewrite Forall_map in A. cbn.
    split; [exact If|]. split; [exact Nf|]. split; [intros ->; apply Ne; reflexivity|]. apply storable_all. rewrite Forall_forall in *. intros x Ix.
    apply (H x Ix (S' x Ix)); [|exact (A x Ix)]. intros s Is. apply Pa. cbn. apply in_flat_map. exists x. auto.
Qed.

(** * Blocks *)
Section bind.
  Variable P : sblock -> Prop.
  Hypothesis H1 : forall c qs n t, P (SPrim c qs n t).
  Hypothesis H2 : forall c qs ps n t, P (SParam c qs ps n t).
  Hypothesis H3 : forall c qs b n t, P b -> P (SCtrl c qs b n t).
  Hypothesis H4 : forall c qs b n t, P b -> P (SPCtrl c qs b n t).
  Hypothesis H5 : forall ps b t, P b -> P (SScale ps b t).
  Hypothesis H6 : forall c bs qs t, Forall P bs -> P (SComp c bs qs t).
  Fixpoint sblock_ind' (b : sblock) : P b :=
    match b with
    | SPrim c qs n t => H1 c qs n t
    | SParam c qs ps n t => H2 c qs ps n t
    | SCtrl c qs b n t => H3 c qs b n t (sblock_ind' b)
    | SPCtrl c qs b n t => H4 c qs b n t (sblock_ind' b)
    | SScale ps b t => H5 ps b t (sblock_ind' b)
    | SComp c bs qs t => H6 c bs qs t ((fix go l : Forall P l := match l with [] => Forall_nil _ | x :: r => Forall_cons x (sblock_ind' x) (go r) end) bs)
    end.
End bind.

(** Specification: the blocks that come back.  Noise handlers are valid ones (C29). *)
Definition noise_ok (n : option noise) : Prop := match n with None => True | Some (ps, os) => M_Noise.verify_all ps os = true end.
Definition params_ok (ps : parammap) : Prop := Forall (fun p => storable (snd (snd p)) /\ values_by_name (snd (snd p))) ps.
Definition apart (a b : sblock) : Prop := forall q, In q (support_of a) -> ~ In q (support_of b).
Fixpoint supported (b : sblock) : Prop :=
  match b with
  | SPrim c qs n _ => noise_ok n /\ ((In c ["X"; "Y"; "Z"; "I"; "H"; "S"; "SDagger"; "T"; "TDagger"] /\ exists q, qs = [q]) \/ (c = "SWAP" /\ exists x y, qs = [x; y] /\ x <> y))
  | SParam c qs ps n _ => noise_ok n /\ In c ["RX"; "RY"; "RZ"] /\ (exists q, qs = [q]) /\ params_ok ps
  | SCtrl c qs b n _ => noise_ok n /\ exists x y, qs = [x; y] /\ x <> y /\ ((c = "CNOT" /\ b = SPrim "X" [y] None None) \/ (c = "CZ" /\ b = SPrim "Z" [y] None None))
  | SPCtrl _ _ _ _ _ => False
  | SScale ps b _ => params_ok ps /\ supported b
  | SComp c bs qs _ => In c ["ChainBlock"; "KronBlock"; "AddBlock"] /\ qs = flat_map support_of bs /\
      (c = "KronBlock" -> bs <> [] /\ ForallOrdPairs apart bs) /\
      (fix all l := match l with [] => True | x :: r => supported x /\ all r end) bs
  end.
Lemma supported_all : forall bs, (fix all l := match l with [] => True | x :: r => supported x /\ all r end) bs <-> Forall supported bs.
Proof. induction bs as [|a r IH]; [split; [constructor|auto]|]. rewrite IH. split; [intros [A B]; constructor; assumption|intros F; inversion F; auto]. Qed.
(** What is lost: the tags of gates, rotations, control and scale blocks (composites keep theirs). *)
Fixpoint untagged (b : sblock) : sblock :=
  match b with
  | SPrim c qs n _ => SPrim c qs n None
  | SParam c qs ps n _ => SParam c qs ps n None
  | SCtrl c qs b n _ => SCtrl c qs b n None
  | SPCtrl c qs b n _ => SPCtrl c qs b n None
  | SScale ps b _ => SScale ps (untagged b) None
  | SComp c bs qs t => SComp c (map untagged bs) qs t
  end.
Definition tag_of (b : sblock) : tag :=
  match b with SPrim _ _ _ t | SParam _ _ _ _ t | SCtrl _ _ _ _ t | SPCtrl _ _ _ _ t | SScale _ _ t | SComp _ _ _ t => t end.

Lemma inb_In : forall c l, inb c l = true <-> In c l.
Proof.
  intros c l. unfold inb. rewrite existsb_exists. split; [intros [x [I E]]; apply String.eqb_eq in E; subst; exact I|intros I; exists c; rewrite String.eqb_refl; auto].
Qed.
Lemma noise_back : forall n, noise_ok n -> noise_from_dict n = Some n.
Proof.
  intros [[ps os]|]; [|reflexivity]. cbn. intros V. destruct ps as [|p ps]; [discriminate|]. rewrite V. reflexivity.
Qed.
Lemma params_back : forall ord fresh ps, set_enumeration ord -> params_ok ps -> params_from_dict fresh (params_to_dict ord ps) = Some ps.
Proof.
  intros ord fresh ps Ho H. unfold params_from_dict, params_to_dict. rewrite map_map. cbn [fst snd].
  rewrite (oseq_map_some _ (fun p => p)), map_id; [reflexivity|]. unfold params_ok in H. rewrite Forall_forall in *. intros [n [u e]] I. destruct (H _ I) as [St Va]. cbn [fst snd] in *.
  destruct (C44_expression ord fresh e Ho St Va) as [d [E1 E2]]. rewrite E1, E2. reflexivity.
Qed.
Lemma support_untagged : forall b, supported b -> support_of (untagged b) = support_of b.
Proof.
  apply (sblock_ind' (fun b => supported b -> support_of (untagged b) = support_of b)); try reflexivity.
  - intros ps b t IH [_ S']. exact (IH S').
  - intros c bs qs t H S'. cbn in S'. destruct S' as [Ic [-> [_ A]]]. apply supported_all in A. cbn [untagged support_of]. destruct (inb c composites); [|reflexivity].
    induction bs as [|b bs IH]; [reflexivity|]. inversion H. inversion A. subst. cbn. rewrite H2 by assumption. f_equal. auto.
Qed.
Lemma disjoint_spec : forall bs acc, disjoint_supports acc (map support_of bs) = true <->
  Forall (fun b => forall q, In q (support_of b) -> ~ In q acc) bs /\ ForallOrdPairs (fun a b => forall q, In q (support_of a) -> ~ In q (support_of b)) bs.
Proof.
  induction bs as [|b bs IH]; intros acc; cbn [map disjoint_supports].
  - split; [intros _; split; constructor|reflexivity].
  - rewrite andb_true_iff, IH, forallb_forall. split.
    + intros [Hb [Hr Hp]]. rewrite Forall_forall in Hr. split.
      * constructor; [|apply Forall_forall; intros x Ix q Iq J; apply (Hr x Ix q Iq); apply in_or_app; left; exact J].
        intros q Iq J. specialize (Hb q Iq). apply negb_true_iff in Hb. assert (existsb (Nat.eqb q) acc = true) by (apply existsb_exists; exists q; rewrite Nat.eqb_refl; auto). congruence.
      * constructor; [|exact Hp]. apply Forall_forall. intros x Ix q Iq J. apply (Hr x Ix q J). apply in_or_app. right. exact Iq.
    + intros [Ha Hp]. inversion Ha as [|? ? Hb Hr]. inversion Hp as [|? ? Hbr Hrp]. subst. split; [|split; [|exact Hrp]].
      * intros q Iq. apply negb_true_iff. destruct (existsb (Nat.eqb q) acc) eqn:E; [|reflexivity]. apply existsb_exists in E. destruct E as [x [Ix E]]. apply Nat.eqb_eq in E. subst.
        exfalso. exact (Hb x Iq Ix).
      * rewrite Forall_forall in *. intros x Ix q Iq J. apply in_app_or in J. destruct J as [J|J]; [exact (Hr x Ix q Iq J)|exact (Hbr x Ix q J Iq)].
Qed.

Lemma block_back : forall ord fresh b, set_enumeration ord -> supported b -> from_dict fresh (to_dict ord b) = Some (untagged b).
Proof.
  intros ord fresh b Ho. revert b. apply (sblock_ind' (fun b => supported b -> from_dict fresh (to_dict ord b) = Some (untagged b))); cbn [supported].
  - intros c qs n t [N [[Ic [q ->]]|[-> [x [y [-> D]]]]]]; cbn [to_dict from_dict untagged].
    + apply (proj2 (inb_In c prim1)) in Ic. rewrite Ic, (noise_back n N). reflexivity.
    + change (inb "SWAP" prim1) with false. cbv iota. change (String.eqb "SWAP" "SWAP") with true. cbv iota. rewrite (noise_back n N).
      rewrite (proj2 (Nat.eqb_neq x y) D). reflexivity.
  - intros c qs ps n t [N [Ic [[q ->] P]]]. cbn [to_dict from_dict untagged].
    assert (E : inb c prim1 = false /\ String.eqb c "SWAP" = false /\ inb c rotations = true) by (destruct Ic as [<-|[<-|[<-|[]]]]; auto).
    destruct E as [E1 [E2 E3]]. rewrite E1, E2, E3, (noise_back n N), (params_back ord fresh ps Ho P). reflexivity.
  - intros c qs b n t _ [N [x [y [-> [D X]]]]]. cbn [to_dict from_dict untagged].
    destruct X as [[-> ->]|[-> ->]]; cbn [inb existsb String.eqb Ascii.eqb Bool.eqb prim1 rotations orb]; rewrite (noise_back n N), (proj2 (Nat.eqb_neq x y) D); reflexivity.
  - intros c qs b n t _ [].
  - intros ps b t IH [P S']. cbn [to_dict from_dict untagged]. cbn [inb existsb String.eqb Ascii.eqb Bool.eqb prim1 rotations orb].
    rewrite (params_back ord fresh ps Ho P), (IH S'). reflexivity.
  - intros c bs qs t H [Ic [-> [Hk A]]]. apply supported_all in A. cbn [to_dict from_dict untagged].
    assert (E : inb c prim1 = false /\ String.eqb c "SWAP" = false /\ inb c rotations = false /\ inb c ["CNOT"; "CZ"] = false /\ String.eqb c "ScaleBlock" = false /\ inb c composites = true)
      by (destruct Ic as [<-|[<-|[<-|[]]]]; repeat split; reflexivity).
    destruct E as [E1 [E2 [E3 [E4 [E5 E6]]]]]. rewrite E1, E2, E3, E4, E5, E6. rewrite map_map.
    rewrite (oseq_map_some _ untagged) by (rewrite Forall_forall in *; intros x Ix; exact (H x Ix (A x Ix))).
    assert (Es : map support_of (map untagged bs) = map support_of bs).
    { rewrite map_map. apply map_ext_in. intros x Ix. apply support_untagged. rewrite Forall_forall in A. exact (A x Ix). }
    assert (K : composite_ok c (map untagged bs) = true).
    { unfold composite_ok. destruct (String.eqb c "KronBlock") eqn:Ek; [|reflexivity]. apply String.eqb_eq in Ek. destruct (Hk Ek) as [Ne Ap].
      rewrite Es. destruct bs as [|b0 bs]; [congruence|]. change (map untagged (b0 :: bs)) with (untagged b0 :: map untagged bs). cbv iota. apply disjoint_spec. split; [|exact Ap].
      apply Forall_forall. intros x _ q _ []. }
    rewrite K. f_equal. f_equal. rewrite !flat_map_concat_map. rewrite Es. reflexivity.
Qed.

(** [deserialize(serialize(b))] is [b] again, qubits, parameters, values, uuids, noise and structure included; of the tags it keeps
    the outermost one and those of composite blocks. *)
Theorem C44_block : forall ord fresh b, set_enumeration ord -> supported b ->
  deserialize fresh (to_dict ord b) = Some (set_tag (untagged b) (tag_of b)).
Proof.
  intros ord fresh b Ho S'. unfold deserialize. rewrite (block_back ord fresh b Ho S'). f_equal.
  destruct b; cbn; destruct t; reflexivity.
Qed.
(** So without tags on inner non-composite blocks nothing is lost. *)
Fixpoint plain_inside (b : sblock) : Prop :=
  match b with
  | SComp _ bs _ _ => (fix all l := match l with [] => True | x :: r => plain_inside x /\ all r end) bs
  | SScale _ b t => t = None /\ plain_inside b
  | SPrim _ _ _ t | SParam _ _ _ _ t | SCtrl _ _ _ _ t | SPCtrl _ _ _ _ t => t = None
  end.
Lemma plain_all : forall bs, (fix all l := match l with [] => True | x :: r => plain_inside x /\ all r end) bs <-> Forall plain_inside bs.
Proof. induction bs as [|a r IH]; [split; [constructor|auto]|]. rewrite IH. split; [intros [A B]; constructor; assumption|intros F; inversion F; auto]. Qed.
Lemma untagged_plain : forall b, plain_inside b -> untagged b = b.
Proof.
  apply (sblock_ind' (fun b => plain_inside b -> untagged b = b)); cbn [plain_inside untagged].
  - intros c qs n t ->. reflexivity.
  - intros c qs ps n t ->. reflexivity.
  - intros c qs b n t _ ->. reflexivity.
  - intros c qs b n t _ ->. reflexivity.
  - intros ps b t IH [-> P]. rewrite (IH P). reflexivity.
  - intros c bs qs t H P. apply plain_all in P. f_equal. induction H as [|b bs Hb H IH]; [reflexivity|]. inversion P. subst. cbn. rewrite Hb by assumption. f_equal. auto.
Qed.
Theorem C44_exact : forall ord fresh b, set_enumeration ord -> supported b -> plain_inside b -> deserialize fresh (to_dict ord b) = Some b.
Proof.
  intros ord fresh b Ho S' P. rewrite (C44_block ord fresh b Ho S'), (untagged_plain b P). destruct b; reflexivity.
Qed.
(** A circuit keeps its register and its block; a root block that is not composite loses its tag. *)
Theorem C44_circuit : forall (Reg RD : Type) (rto : Reg -> RD) (rfrom : RD -> option Reg) ord fresh b r, (forall x, rfrom (rto x) = Some x) ->
  set_enumeration ord -> supported b -> circuit_from_dict fresh rfrom (circuit_to_dict ord rto (b, r)) = Some (untagged b, r).
Proof.
  intros Reg RD rto rfrom ord fresh b r Hr Ho S'. unfold circuit_from_dict, circuit_to_dict. cbn [fst snd]. rewrite Hr, (block_back ord fresh b Ho S'). reflexivity.
Qed.

(** The classes that come back, and no other: a tree that contains any other class below chains, krons, sums and scale blocks raises. *)
Definition class_of (b : sblock) : string :=
  match b with SPrim c _ _ _ | SParam c _ _ _ _ | SCtrl c _ _ _ _ | SPCtrl c _ _ _ _ | SComp c _ _ _ => c | SScale _ _ _ => "ScaleBlock" end.
Inductive occurs (c : string) : sblock -> Prop :=
| occ_here : forall b, class_of b = c -> occurs c b
| occ_scale : forall ps b t, occurs c b -> occurs c (SScale ps b t)
| occ_comp : forall k bs qs t b, In k ["ChainBlock"; "KronBlock"; "AddBlock"] -> In b bs -> occurs c b -> occurs c (SComp k bs qs t).
Definition restorable : list string :=
  ["X"; "Y"; "Z"; "I"; "H"; "S"; "SDagger"; "T"; "TDagger"; "SWAP"; "RX"; "RY"; "RZ"; "CNOT"; "CZ"; "ScaleBlock"; "ChainBlock"; "KronBlock"; "AddBlock"].
Lemma oseq_none_in : forall {A B} (f : A -> option B) l x, In x l -> f x = None -> osequence (map f l) = None.
Proof.
  intros A B f l x. induction l as [|y l IH]; intros I E; [contradiction|]. cbn. destruct I as [->|I]; [rewrite E; reflexivity|]. rewrite (IH I E). destruct (f y); reflexivity.
Qed.
Lemma from_none : forall ord fresh c b, ~ In c restorable -> occurs c b -> from_dict fresh (to_dict ord b) = None.
Proof.
  intros ord fresh c b N O. induction O as [b E|ps b t O IH|k bs qs t b Ik I O IH].
  - assert (Y : forall l, incl l restorable -> inb c l = false).
    { intros l Hl. destruct (inb c l) eqn:E'; [|reflexivity]. apply inb_In in E'. exfalso. exact (N (Hl c E')). }
    assert (Y1 : forall x, In x restorable -> String.eqb c x = false) by (intros x Ix; apply String.eqb_neq; intros ->; contradiction).
    assert (X : forall sup t params blocks block n, from_dict fresh (Dict c sup t params blocks block n) = None).
    { intros. cbn [from_dict]. rewrite (Y prim1), (Y1 "SWAP"), (Y rotations), (Y ["CNOT"; "CZ"]), (Y1 "ScaleBlock"), (Y composites); [reflexivity|..];
        try (apply (proj1 (inb_In _ _)); reflexivity); intros x Ix; cbn in Ix; apply (proj1 (inb_In _ _)); intuition (subst; reflexivity). }
    destruct b; cbn in E; subst; apply X.
  - cbn [to_dict from_dict]. cbn [inb existsb String.eqb Ascii.eqb Bool.eqb prim1 rotations orb]. rewrite IH. destruct (params_from_dict fresh (params_to_dict ord ps)); reflexivity.
  - cbn [to_dict from_dict].
    assert (E : inb k prim1 = false /\ String.eqb k "SWAP" = false /\ inb k rotations = false /\ inb k ["CNOT"; "CZ"] = false /\ String.eqb k "ScaleBlock" = false /\ inb k composites = true)
      by (destruct Ik as [<-|[<-|[<-|[]]]]; repeat split; reflexivity).
    destruct E as [E1 [E2 [E3 [E4 [E5 E6]]]]]. rewrite E1, E2, E3, E4, E5, E6. rewrite map_map. rewrite (oseq_none_in _ bs b I IH). reflexivity.
Qed.
Theorem C44_raises : forall ord fresh c b, ~ In c restorable -> occurs c b -> deserialize fresh (to_dict ord b) = None.
Proof. intros ord fresh c b N O. unfold deserialize. rewrite (from_none ord fresh c b N O). reflexivity. Qed.

(** * Parameters *)
(** A parameter comes back as a parameter, with its name, its value and its being trainable. *)
Theorem C44_parameter : forall s d, sym_to_dict s = Some d ->
  let s' := sym_from_dict d in sy_param s' = true /\ sy_name s' = sy_name s /\ sy_value s' = sy_value s /\ trainable s' = trainable s.
Proof. intros s d H. unfold sym_to_dict in H. destruct (sy_param s); [|discriminate H]. injection H as <-. repeat split. Qed.
(** That it is the time is not kept. *)
Theorem C44_time_refuted : exists s d, sym_to_dict s = Some d /\ is_time s = true /\ is_time (sym_from_dict d) = false.
Proof.
  exists {| sy_param := true; sy_name := txt "t"; sy_kw := [(txt "trainable", false); (txt "is_time", true)]; sy_value := "0.0" |}. eexists. split; [reflexivity|]. split; reflexivity.
Qed.
(** * Dictionaries not written by qadence *)
(** A kron of nothing, or of parts one of which uses a qubit of an earlier one, is refused. *)
Theorem C44_kron_refused : forall fresh sup t params block n,
  deserialize fresh (Dict "KronBlock" sup t params (Some []) block n) = None /\
  forall ds bs, osequence (map (from_dict fresh) ds) = Some bs ->
    (exists a x b y c q, bs = a ++ x :: b ++ y :: c /\ In q (support_of x) /\ In q (support_of y)) ->
    deserialize fresh (Dict "KronBlock" sup t params (Some ds) block n) = None.
Proof.
  intros fresh sup t params block n. split; [reflexivity|]. intros ds bs E (a & x & b & y & c & q & -> & Hx & Hy). unfold deserialize. cbn [from_dict]. change (inb "KronBlock" prim1) with false. change (String.eqb "KronBlock" "SWAP") with false.
  change (inb "KronBlock" rotations) with false. change (inb "KronBlock" ["CNOT"; "CZ"]) with false. change (String.eqb "KronBlock" "ScaleBlock") with false. change (inb "KronBlock" composites) with true. cbn match. rewrite E.
  assert (G : forall l acc, In q acc -> forall l', disjoint_supports acc (l ++ support_of y :: l') = false).
  { induction l as [|s l IH]; intros acc I l'; cbn [app disjoint_supports].
    - replace (forallb _ (support_of y)) with false; [reflexivity|]. symmetry. destruct (forallb _ (support_of y)) eqn:F; [|reflexivity]. exfalso. rewrite forallb_forall in F. specialize (F q Hy). apply negb_true_iff in F.
      assert (T : existsb (Nat.eqb q) acc = true) by (apply existsb_exists; exists q; split; [exact I|apply Nat.eqb_refl]). congruence.
    - rewrite IH; [apply andb_false_r|]. apply in_or_app. left. exact I. }
  assert (F : forall l acc l' l'', disjoint_supports acc (l ++ support_of x :: l' ++ support_of y :: l'') = false).
  { induction l as [|s l IH]; intros acc l' l''; cbn [app disjoint_supports]; [rewrite G; [apply andb_false_r|apply in_or_app; right; exact Hx]|rewrite IH; apply andb_false_r]. }
  assert (K : composite_ok "KronBlock" (a ++ x :: b ++ y :: c) = false).
  { unfold composite_ok. cbn [String.eqb Ascii.eqb Bool.eqb]. rewrite map_app. cbn [map]. rewrite map_app. cbn [map]. rewrite F. destruct (a ++ x :: b ++ y :: c); reflexivity. }
  rewrite K. reflexivity.
Qed.
(** An empty noise dictionary means no noise. *)
Theorem C44_empty_noise : forall fresh c q os t, In c ["X"; "Y"; "Z"; "I"; "H"; "S"; "SDagger"; "T"; "TDagger"] ->
  deserialize fresh (Dict c (Some [q]) t None None None (Some ([], os))) = Some (SPrim c [q] None t).
Proof. intros fresh c q os t Ic. apply (proj2 (inb_In c prim1)) in Ic. unfold deserialize. cbn [from_dict noise_from_dict d_tag]. rewrite Ic. destruct t; reflexivity. Qed.

(** * JSON files *)
(** Without noise a block survives a JSON file unchanged. *)
Fixpoint noise_free (b : sblock) : Prop :=
  match b with
  | SPrim _ _ n _ | SParam _ _ _ n _ => n = None
  | SCtrl _ _ b n _ | SPCtrl _ _ b n _ => n = None /\ noise_free b
  | SScale _ b _ => noise_free b
  | SComp _ bs _ _ => (fix all l := match l with [] => True | x :: r => noise_free x /\ all r end) bs
  end.
Lemma noise_free_all : forall bs, (fix all l := match l with [] => True | x :: r => noise_free x /\ all r end) bs <-> Forall noise_free bs.
Proof. induction bs as [|a r IH]; [split; [constructor|auto]|]. rewrite IH. split; [intros [A B]; constructor; assumption|intros F; inversion F; auto]. Qed.
Lemma json_same : forall ord b, noise_free b -> through_json (to_dict ord b) = to_dict ord b.
Proof.
  intros ord. apply (sblock_ind' (fun b => noise_free b -> through_json (to_dict ord b) = to_dict ord b)); cbn [noise_free to_dict through_json].
  - intros c qs n t ->. reflexivity.
  - intros c qs ps n t ->. reflexivity.
  - intros c qs b n t IH [-> F]. cbn [map]. rewrite (IH F). reflexivity.
  - intros c qs b n t IH [-> F]. cbn [map]. rewrite (IH F). reflexivity.
  - intros ps b t IH F. rewrite (IH F). reflexivity.
  - intros c bs qs t H F. apply noise_free_all in F. f_equal. f_equal. rewrite map_map. apply map_ext_in. intros x Ix. rewrite Forall_forall in *. exact (H x Ix (F x Ix)).
Qed.
Theorem C44_json : forall ord fresh b, set_enumeration ord -> supported b -> noise_free b -> plain_inside b ->
  deserialize fresh (through_json (to_dict ord b)) = Some b.
Proof. intros ord fresh b Ho S' F P. rewrite (json_same ord b F). exact (C44_exact ord fresh b Ho S' P). Qed.
(** With noise it does not: the protocols come back as strings, so no noisy gate returns to itself. *)
Theorem C44_json_noise_refuted : forall ord fresh c q ps os t, In c ["X"; "Y"; "Z"; "I"; "H"; "S"; "SDagger"; "T"; "TDagger"] ->
  (exists p, In p ps /\ M_Noise.pmember p = true) -> deserialize fresh (through_json (to_dict ord (SPrim c [q] (Some (ps, os)) t))) <> Some (SPrim c [q] (Some (ps, os)) t).
Proof.
  intros ord fresh c q ps os t Ic [p [Ip Mp]] E. apply (proj2 (inb_In c prim1)) in Ic. unfold deserialize in E. cbn [to_dict through_json json_noise from_dict d_tag] in E. rewrite Ic in E.
  assert (X : exists n', (match n' with Some (ps', _) => Forall (fun x => M_Noise.pmember x = false) ps' | None => True end) /\
    (match n' with Some (ps', os') => (ps', os') <> (ps, os) | None => True end) /\
    (noise_from_dict (json_noise (Some (ps, os))) = Some n' \/ noise_from_dict (json_noise (Some (ps, os))) = None)).
  { unfold json_noise. destruct ps as [|p0 ps]; [contradiction|]. set (g := fun p1 : M_Noise.proto => {| M_Noise.pkind := _; M_Noise.pmember := _; M_Noise.pid := _ |}). cbn [map noise_from_dict].
    exists (Some (g p0 :: map g ps, os)). split; [|split].
    - change (g p0 :: map g ps) with (map g (p0 :: ps)). rewrite Forall_map. apply Forall_forall. reflexivity.
    - intros E'. injection E' as E1 E2. change (g p0 :: map g ps) with (map g (p0 :: ps)) in *. assert (In p (map g (p0 :: ps))) by (cbn [map]; rewrite E1, E2; exact Ip).
      apply in_map_iff in H. destruct H as [x [Ex _]]. subst. discriminate.
    - destruct (M_Noise.verify_all (g p0 :: map g ps) os); [left|right]; reflexivity. }
  destruct X as [n' [_ [X [Y|Y]]]]; cbn [json_noise] in Y; rewrite Y in E; [|discriminate]. destruct t; cbn in E; injection E as E; subst; congruence.
Qed.

(** * Examples *)
Definition ex_symbol : symbol := {| sy_param := true; sy_name := txt "theta"; sy_kw := [(txt "trainable", true)]; sy_value := "0.25" |}.
Definition ex_expr : sexpr := SApp (txt "Mul") [SInt (txt "2"); SSym ex_symbol].
Definition ex_noise : noise := ([{| M_Noise.pkind := M_Noise.Digital; M_Noise.pmember := true; M_Noise.pid := 0 |}], [[("error_probability", Some 1)]]).
Definition ex_block : sblock :=
  SComp "ChainBlock" [SPrim "X" [0] (Some ex_noise) (Some "flip"); SParam "RX" [1] [("parameter", ("u1", ex_expr))] None None;
                      SCtrl "CNOT" [0; 1] (SPrim "X" [1] None None) None None;
                      SComp "KronBlock" [SScale [("scale", ("u2", ex_expr))] (SPrim "Z" [0] None None) None; SPrim "SWAP" [2; 1] None None] [0; 2; 1] (Some "layer")]
    [0; 1; 0; 1; 0; 2; 1] (Some "all").
Lemma ex_storable : storable ex_expr /\ values_by_name ex_expr.
Proof.
  split.
  - cbn. split; [apply ident_txt; reflexivity|]. split; [intros H; repeat (destruct H as [H|H]; [discriminate|]); exact H|]. split; [discriminate|].
    split; [|split; [|exact I]].
    + left. right. exists "2"%char, []. repeat split; reflexivity.
    + split; [reflexivity|]. split; [right; split; [discriminate|reflexivity]|]. repeat constructor. apply keyword_txt. reflexivity.
  - intros s t Is It _. cbn in Is, It. destruct Is as [<-|[]]. destruct It as [<-|[]]. reflexivity.
Qed.
Example C44_witness : supported ex_block /\ deserialize "u" (to_dict (fun l => l) ex_block) = Some (set_tag (untagged ex_block) (Some "all")) /\ untagged ex_block <> ex_block.
Proof.
  assert (P : forall n u, params_ok [(n, (u, ex_expr))]) by (intros; constructor; [exact ex_storable|constructor]).
  assert (S' : supported ex_block).
  { cbn [supported ex_block]. repeat match goal with |- _ /\ _ => split end; try exact I; try reflexivity; try (apply P); try discriminate; try (apply (proj1 (inb_In _ _)); reflexivity).
    - left. split; [apply (proj1 (inb_In _ _)); reflexivity|]. eauto.
    - eauto.
    - exists 0, 1. repeat split; auto.
    - intros _. split; [discriminate|]. repeat constructor. intros q [<-|[]]. cbn. intuition discriminate.
    - left. split; [apply (proj1 (inb_In _ _)); reflexivity|]. eauto.
    - right. split; [reflexivity|]. exists 2, 1. auto. }
  split; [exact S'|]. split; [|discriminate]. exact (C44_block (fun l => l) "u" ex_block (fun l x => iff_refl _) S').
Qed.
(** What is lost or refused. *)
(** An inner tag is lost. *)
Theorem C44_tags_refuted : exists b, supported b /\ deserialize "u" (to_dict (fun l => l) b) <> Some b.
Proof. exists ex_block. split; [exact (proj1 C44_witness)|]. rewrite (proj1 (proj2 C44_witness)). discriminate. Qed.
(** [N] cannot be read back, so neither can any Hamiltonian built from it. *)
Example C44_N : deserialize "u" (to_dict (fun l => l) (SComp "AddBlock" [SPrim "X" [0] None None; SPrim "N" [1] None None] [0; 1] None)) = None.
Proof. apply (C44_raises _ _ "N"); [intros H; repeat (destruct H as [H|H]; [discriminate|]); exact H|]. apply (occ_comp _ _ _ _ _ (SPrim "N" [1] None None)); cbn; auto. constructor. reflexivity. Qed.
(** Constants, exponents and the time parameter cannot be read back. *)
Example C44_expressions_refused :
  map (fun e => match serialize_expr (fun l => l) e with Some d => match deserialize_expr "u" d with Some _ => true | None => false end | None => false end)
    [SApp (txt "Mul") [SName (txt "pi"); SSym ex_symbol]; SFloat (txt "1.0e-6") (txt "53");
     SSym {| sy_param := true; sy_name := txt "t"; sy_kw := [(txt "trainable", false); (txt "is_time", true)]; sy_value := "0.0" |};
     SSym {| sy_param := true; sy_name := txt "a b"; sy_kw := [(txt "trainable", true)]; sy_value := "0.0" |}; ex_expr]
  = [false; false; false; false; true].
Proof. vm_compute. reflexivity. Qed.
Print Assumptions C44_expression.
Print Assumptions C44_expression_only.
Print Assumptions C44_block.
Print Assumptions C44_exact.
Print Assumptions C44_circuit.
Print Assumptions C44_raises.
Print Assumptions C44_json.
Print Assumptions C44_json_noise_refuted.
Print Assumptions C44_tags_refuted.
Print Assumptions C44_parameter.
Print Assumptions C44_time_refuted.
Print Assumptions C44_kron_refused.
Print Assumptions C44_empty_noise.
