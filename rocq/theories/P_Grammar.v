(** C50: which texts the expression check of [deserialize] lets through. *)
From Coq Require Import String List Ascii Bool Arith Lia.
From Coq Require Import List.
From Verif Require Import S_Grammar M_Grammar L_Grammar.
Import ListNotations.
Open Scope char_scope.
Open Scope list_scope.
Notation txt := list_ascii_of_string.

Lemma spaced_nil : forall s, spaced [] s <-> skipws s = [].
Proof. intros s. rewrite skipws_all. split; [intros Sp; inversion Sp; assumption|apply sp_nil]. Qed.

(** A text is read as the call [t] exactly when it is one of the spellings of [t]: the parser neither misses a text of the
    grammar, nor accepts anything else, nor reads a text in two ways. *)
Theorem C50_parse : forall code t, parse code = Some t <-> is_call t /\ call_ok t /\ spaced (tokens t) code.
Proof.
  intros code t. unfold parse. split.
  - destruct (m_expr _ code) as [[t' r]|] eqn:E; [|discriminate]. destruct (skipws r) eqn:W; [|discriminate]. intros H. injection H as ->.
    destruct (proj1 (parser_sound _) _ _ _ E) as [Ic [K Sp]]. split; [exact Ic|]. split; [exact K|].
    specialize (Sp [] (proj2 (spaced_nil r) W)). rewrite app_nil_r in Sp. exact Sp.
  - intros [Ic [K Sp]]. destruct (parser_complete t K Ic (2 + 3 * length code) [] code) as [s' [E Sp']].
    + pose proof (spaced_length _ _ (tokens_nonempty t K) Sp). unfold text in *. lia.
    + rewrite app_nil_r. exact Sp.
    + rewrite E. rewrite (proj1 (spaced_nil s') Sp'). reflexivity.
Qed.
Theorem C50_exact : forall code, parse_expr_fn code = true <-> grammatical code.
Proof.
  intros code. unfold parse_expr_fn. split.
  - destruct (parse code) as [t|] eqn:E; [|discriminate]. intros _. exists t. apply C50_parse, E.
  - intros [t H]. apply C50_parse in H. rewrite H. reflexivity.
Qed.
Theorem C50_unambiguous : forall code t u, is_call t -> is_call u -> call_ok t -> call_ok u -> spaced (tokens t) code -> spaced (tokens u) code -> t = u.
Proof.
  intros code t u It Iu Kt Ku St Su. assert (A : parse code = Some t) by (apply C50_parse; auto). assert (B : parse code = Some u) by (apply C50_parse; auto).
  rewrite A in B. injection B. auto.
Qed.

(** Outside string literals an accepted text has only letters, digits, underscores, parentheses, commas, minus signs, equal signs
    and white space: no attribute access, operator, subscript, statement or comment. *)
Fixpoint unquoted (q : bool) (s : text) : text :=
  match s with
  | [] => []
  | c :: r => if Ascii.eqb c "'" then unquoted (negb q) r else if q then unquoted q r else c :: unquoted q r
  end.
Definition plain (c : ascii) : bool := idchar c || white c || existsb (Ascii.eqb c) ["("; ")"; ","; "-"; "="].
Lemma unquoted_plain : forall a s, no_quote a -> unquoted false (a ++ s) = a ++ unquoted false s.
Proof. induction a as [|c a IH]; intros s N; [reflexivity|]. inversion N as [|? ? Nc Na]; subst. cbn. rewrite Nc, IH; auto. Qed.
Lemma unquoted_in : forall a s, no_quote a -> unquoted true (a ++ s) = unquoted true s.
Proof. induction a as [|c a IH]; intros s N; [reflexivity|]. inversion N as [|? ? Nc Na]; subst. cbn. rewrite Nc, IH; auto. Qed.
Lemma unquoted_quoted : forall k s, no_quote k -> unquoted false (quoted k ++ s) = unquoted false s.
Proof. intros k s N. unfold quoted. cbn. rewrite <- app_assoc, unquoted_in by exact N. reflexivity. Qed.
(** Tokens: without quotes and plain, or a quoted literal. *)
Definition token_ok (k : text) : Prop := (no_quote k /\ forallb plain k = true) \/ exists a, k = quoted a /\ no_quote a.
Lemma white_plain : forall c, white c = true -> plain c = true. Proof. chars. Qed.
Lemma white_no_quote : forall c, white c = true -> Ascii.eqb c "'" = false. Proof. chars. Qed.
Lemma idchar_plain : forall c, idchar c = true -> plain c = true. Proof. chars. Qed.
Lemma spaced_unquoted : forall l s, Forall token_ok l -> spaced l s -> forallb plain (unquoted false s) = true.
Proof.
  intros l s F Sp. induction Sp as [w Fw|w k l s Fw Sp IH].
  - rewrite <- (app_nil_r w), unquoted_plain; [|apply Forall_forall; intros c I; apply white_no_quote, (proj1 (forallb_forall _ _) Fw c I)].
    cbn. rewrite app_nil_r. apply forallb_forall. intros c I. apply white_plain, (proj1 (forallb_forall _ _) Fw c I).
  - inversion F as [|? ? Tk Fl]; subst. specialize (IH Fl).
    rewrite unquoted_plain; [|apply Forall_forall; intros c I; apply white_no_quote, (proj1 (forallb_forall _ _) Fw c I)].
    rewrite forallb_app. apply andb_true_iff. split; [apply forallb_forall; intros c I; apply white_plain, (proj1 (forallb_forall _ _) Fw c I)|].
    destruct Tk as [[N P]|[a [-> N]]].
    + rewrite unquoted_plain by exact N. rewrite forallb_app, P, IH. reflexivity.
    + rewrite unquoted_quoted by exact N. exact IH.
Qed.
Lemma idchars_token : forall k, forallb idchar k = true -> token_ok k.
Proof.
  intros k F. left. split.
  - apply word_no_quote. apply forallb_forall. intros c I. apply idchar_strchar, (proj1 (forallb_forall _ _) F c I).
  - apply forallb_forall. intros c I. apply idchar_plain, (proj1 (forallb_forall _ _) F c I).
Qed.
Lemma ident_token : forall n, ident n -> token_ok n.
Proof. intros n [c [r [-> [A F]]]]. apply idchars_token. cbn. rewrite (alpha_idchar c A). exact F. Qed.
Lemma keyword_token : forall n, keyword n -> token_ok n.
Proof.
  intros n [c [r [-> [A F]]]]. apply idchars_token. cbn. rewrite (alpha_idchar c (lower_alpha c A)). cbn.
  apply forallb_forall. intros d I. apply alpha_idchar, (proj1 (forallb_forall _ _) F d I).
Qed.
Lemma natural_idchars : forall n, natural n -> forallb idchar n = true.
Proof.
  intros n [->|[c [r [-> [A F]]]]]; [reflexivity|]. cbn. rewrite (digit_idchar c (digit1_digit c A)). cbn.
  apply forallb_forall. intros d I. apply digit_idchar, (proj1 (forallb_forall _ _) F d I).
Qed.
Lemma integer_token : forall n, integer n -> token_ok n.
Proof.
  intros n [N|[r [-> N]]]; [apply idchars_token, natural_idchars, N|]. destruct (idchars_token r (natural_idchars r N)) as [[Q P]|[a [E Q]]].
  - left. split; [constructor; [reflexivity|exact Q]|]. cbn. exact P.
  - exfalso. pose proof (natural_idchars r N) as F. rewrite E in F. discriminate.
Qed.
Lemma quoted_token : forall k, number k \/ word k -> token_ok (quoted k).
Proof. intros k [K|K]; right; exists k; split; auto; [exact (number_no_quote k K)|exact (word_no_quote k (proj2 K))]. Qed.
Lemma char_token : forall c, Ascii.eqb c "'" = false -> plain c = true -> token_ok [c].
Proof. intros c N P. left. split; [constructor; [exact N|constructor]|cbn; rewrite P; reflexivity]. Qed.
Lemma value_token : forall v, value_ok v -> Forall token_ok (value_tokens v).
Proof.
  intros [k|k|n k|n b|n k]; cbn; intros V.
  - constructor; [exact (integer_token k V)|constructor].
  - constructor; [exact (quoted_token k V)|constructor].
  - destruct V as [K V]. constructor; [exact (keyword_token n K)|]. constructor; [apply char_token; reflexivity|]. constructor; [exact (integer_token k V)|constructor].
  - constructor; [exact (keyword_token n V)|]. constructor; [apply char_token; reflexivity|]. constructor; [apply idchars_token; destruct b; reflexivity|constructor].
  - destruct V as [K V]. constructor; [exact (keyword_token n K)|]. constructor; [apply char_token; reflexivity|]. constructor; [exact (quoted_token k (or_intror V))|constructor].
Qed.
Lemma call_tokens : forall t, call_ok t -> Forall token_ok (tokens t).
Proof.
  apply (call_ind' (fun t => call_ok t -> Forall token_ok (tokens t))).
  - intros v K. inversion K as [? V|]. subst. exact (value_token v V).
  - intros n args H K. inversion K as [|n' a r N Ka Kr]; subst. inversion H as [|? ? Ha Hr]; subst. rewrite tokens_call.
    constructor; [exact (ident_token n N)|]. constructor; [apply char_token; reflexivity|]. apply Forall_app. split; [exact (Ha Ka)|]. apply Forall_app. split.
    + clear - Hr Kr. induction r as [|b r IH]; [constructor|]. inversion Hr; inversion Kr; subst. cbn. constructor; [apply char_token; reflexivity|].
      apply Forall_app. split; auto.
    + constructor; [apply char_token; reflexivity|constructor].
Qed.
Theorem C50_no_operators : forall code, parse_expr_fn code = true -> forallb plain (unquoted false code) = true.
Proof.
  intros code H. apply C50_exact in H. destruct H as [t [_ [K Sp]]]. exact (spaced_unquoted _ _ (call_tokens t K) Sp).
Qed.
(** Every name that is called begins with a letter (so no double-underscore name is called). *)
Fixpoint called (t : call) : list text := match t with Val _ => [] | Call n args => n :: flat_map called args end.
Theorem C50_called : forall code t n, parse code = Some t -> In n (called t) -> exists c r, n = c :: r /\ alpha c = true /\ forallb idchar r = true.
Proof.
  intros code t n P. apply C50_parse in P. destruct P as [_ [K _]]. revert K.
  apply (call_ind' (fun t => call_ok t -> In n (called t) -> ident n)).
  - intros v _ [].
  - intros m args H K I. inversion K as [|n' a r N Ka Kr]; subst. cbn [called] in I. destruct I as [<-|I]; [exact N|].
    apply in_flat_map in I. destruct I as [x [Ix I]]. rewrite Forall_forall in H. apply (H x Ix); [|exact I].
    destruct Ix as [<-|Ix]; [exact Ka|]. rewrite Forall_forall in Kr. exact (Kr x Ix).
Qed.

(** A text that calls two functions, with literals of every kind and irregular spacing. *)
Example C50_witness : parse_expr_fn (txt "Add( Float('-0.332', precision=53),Mul(Integer(-1) , Parameter('theta_0', trainable=True)) )") = true.
Proof. vm_compute. reflexivity. Qed.
(** The injections named in the docstring (serialization.py:90-92) are rejected. *)
Example C50_rejects : map (fun s => parse_expr_fn (txt s)) ["2*3"; "__import__('os').system('ls -la')"; "f(x)"; "f()"; "f(1"; "f(1) g(2)"; "f(01)"; "f([1])"]%string
  = repeat false 8.
Proof. vm_compute. reflexivity. Qed.
(** But calling any built-in function by name passes the check: the text below truncates a file when it is evaluated.
    So "accepted texts only build sympy expressions" is false. *)
Theorem C50_injection_refuted : exists code t, parse code = Some t /\ In (txt "open") (called t).
Proof. exists (txt "open('settings.json', 'w')"). eexists. split; [vm_compute; reflexivity|]. left. reflexivity. Qed.

Print Assumptions C50_exact.
Print Assumptions C50_parse.
Print Assumptions C50_no_operators.
Print Assumptions C50_called.
Print Assumptions C50_unambiguous.
Print Assumptions C50_injection_refuted.
