(** Printing an expression and reading it back through the grammar. *)
From Coq Require Import String List Ascii Bool Arith Lia.
From Coq Require Import List.
From Verif Require Import S_Grammar M_Grammar L_Grammar M_Tensor M_Transpile M_Serialize P_Grammar.
Import ListNotations.
Open Scope char_scope.
Open Scope list_scope.

Section pind.
  Variable P : printed -> Prop.
  Hypothesis H1 : forall k, P (PInt k).
  Hypothesis H2 : forall k, P (PStr k).
  Hypothesis H3 : forall n k, P (PKeyInt n k).
  Hypothesis H4 : forall n b, P (PKeyBool n b).
  Hypothesis H5 : forall n, P (PName n).
  Hypothesis H6 : forall f args, Forall P args -> P (PApp f args).
  Fixpoint printed_ind' (p : printed) : P p :=
    match p with
    | PInt k => H1 k | PStr k => H2 k | PKeyInt n k => H3 n k | PKeyBool n b => H4 n b | PName n => H5 n
    | PApp f args => H6 f args ((fix go l : Forall P l := match l with [] => Forall_nil _ | x :: r => Forall_cons x (printed_ind' x) (go r) end) args)
    end.
End pind.

(** What can be read back: labels between quotes, keywords of letters, no bare name, no call without arguments. *)
Definition label (k : text) : Prop := number k \/ word k.
Fixpoint accepted (p : printed) : Prop :=
  match p with
  | PInt k => integer k
  | PStr k => label k
  | PKeyInt n k => keyword n /\ integer k
  | PKeyBool n _ => keyword n
  | PName _ => False
  | PApp f args => ident f /\ args <> [] /\ (fix all l := match l with [] => True | x :: r => accepted x /\ all r end) args
  end.
Fixpoint to_call (p : printed) : call :=
  match p with
  | PInt k => Val (VInt k)
  | PStr k => Val (VQuoted k)
  | PKeyInt n k => Val (VKeyInt n k)
  | PKeyBool n b => Val (VKeyBool n b)
  | PName n => Call n []
  | PApp f args => Call f (map to_call args)
  end.
Lemma accepted_all : forall args, (fix all l := match l with [] => True | x :: r => accepted x /\ all r end) args <-> Forall accepted args.
Proof. induction args as [|a r IH]; [split; [constructor|auto]|]. rewrite IH. split; [intros [A B]; constructor; assumption|intros F; inversion F; auto]. Qed.

Lemma escape_plain : forall c, strchar c = true -> escape c = [c]. Proof. chars. Qed.
Lemma label_repr : forall k, label k -> pyrepr k = quoted k.
Proof.
  intros k L. assert (N : no_quote k) by (destruct L as [L|L]; [exact (number_no_quote k L)|exact (word_no_quote k (proj2 L))]).
  assert (F : flat_map escape k = k).
  { assert (S : forallb (fun c => strchar c || Ascii.eqb c "-") k = true).
    { destruct L as [[D|[r [-> D]]]|[_ W]].
      - apply forallb_forall. intros c I. rewrite (proj1 (forallb_forall _ _) (decimal_strchar k D) c I). reflexivity.
      - cbn. apply forallb_forall. intros c I. rewrite (proj1 (forallb_forall _ _) (decimal_strchar r D) c I). reflexivity.
      - apply forallb_forall. intros c I. rewrite (proj1 (forallb_forall _ _) W c I). reflexivity. }
    clear - S. induction k as [|c k IH]; [reflexivity|]. cbn in S. apply andb_true_iff in S. destruct S as [Sc Sk]. cbn. rewrite (IH Sk).
    apply orb_true_iff in Sc. destruct Sc as [Sc|Sc]; [rewrite (escape_plain c Sc); reflexivity|]. apply Ascii.eqb_eq in Sc. subst. reflexivity. }
  unfold pyrepr. assert (E : existsb (Ascii.eqb "'") k = false).
  { destruct (existsb (Ascii.eqb "'") k) eqn:X; [|reflexivity]. apply existsb_exists in X. destruct X as [c [I X]]. apply Ascii.eqb_eq in X. subst c.
    unfold no_quote in N. rewrite Forall_forall in N. specialize (N _ I). discriminate. }
  rewrite E. cbn [andb]. rewrite F. reflexivity.
Qed.

Lemma accepted_ok : forall p, accepted p -> call_ok (to_call p).
Proof.
  apply (printed_ind' (fun p => accepted p -> call_ok (to_call p))); cbn [accepted to_call].
  - intros k A. constructor. exact A.
  - intros k A. constructor. exact A.
  - intros n k A. constructor. exact A.
  - intros n b A. constructor. exact A.
  - intros n [].
  - intros f args H [I [N A]]. apply accepted_all in A. destruct args as [|a r]; [congruence|]. cbn [map].
    inversion H as [|? ? Ha Hr]. inversion A as [|? ? Aa Ar]. subst. constructor; [exact I|exact (Ha Aa)|].
    clear - Hr Ar. induction r as [|x r IH]; [constructor|]. inversion Hr. inversion Ar. subst. constructor; auto.
Qed.
Lemma sp0 : forall k l s, spaced l s -> spaced (k :: l) (k ++ s).
Proof. intros k l s Sp. exact (sp_cons [] k l s eq_refl Sp). Qed.
Lemma spaced_space : forall k l s, spaced (k :: l) s -> spaced (k :: l) (" " :: s).
Proof. intros k l s Sp. inversion Sp as [|w k' l' s' Fw Sp' E1 E2]. subst. apply (sp_cons (" " :: w) k l s'); [cbn; exact Fw|exact Sp']. Qed.
Lemma accepted_spaced : forall p, accepted p -> forall l s, spaced l s -> spaced (tokens (to_call p) ++ l) (render p ++ s).
Proof.
  apply (printed_ind' (fun p => accepted p -> forall l s, spaced l s -> spaced (tokens (to_call p) ++ l) (render p ++ s))); cbn [accepted].
  - intros k _ l s Sp. cbn. apply sp0, Sp.
  - intros k A l s Sp. cbn. rewrite (label_repr k A). apply sp0, Sp.
  - intros n k _ l s Sp. cbn. rewrite <- app_assoc. apply sp0. cbn. apply (sp0 ["="]). apply sp0, Sp.
  - intros n b _ l s Sp. cbn. rewrite <- app_assoc. apply sp0. cbn. apply (sp0 ["="]). apply sp0, Sp.
  - intros n [].
  - intros f args H [I [N A]] l s Sp. apply accepted_all in A. destruct args as [|a r]; [congruence|]. cbn [to_call map]. rewrite tokens_call.
    cbn [render]. rewrite <- app_assoc. cbn [app]. apply sp0. apply (sp0 ["("]). rewrite <- !app_assoc. cbn [app].
    inversion H as [|? ? Ha Hr]. inversion A as [|? ? Aa Ar]. subst.
    assert (X : forall q rest, (accepted q -> forall l s, spaced l s -> spaced (tokens (to_call q) ++ l) (render q ++ s)) -> accepted q ->
                Forall (fun p => accepted p -> forall l s, spaced l s -> spaced (tokens (to_call p) ++ l) (render p ++ s)) rest -> Forall accepted rest ->
                spaced (tokens (to_call q) ++ more_tokens (map to_call rest) ++ [")"] :: l) (join (map render (q :: rest)) ++ [")"] ++ s)).
    { clear - Sp. intros q rest. revert q. induction rest as [|x rest IH]; intros q Hq Aq Hr Ar.
      - cbn. apply (Hq Aq). apply (sp0 [")"]), Sp.
      - inversion Hr as [|? ? Hx Hrest]. inversion Ar as [|? ? Ax Arest]. subst.
        change (join (map render (q :: x :: rest))) with (render q ++ txt ", " ++ join (map render (x :: rest))).
        rewrite <- app_assoc. apply (Hq Aq). cbn [map more_tokens flat_map]. fold (more_tokens (map to_call rest)).
        change (([","] :: tokens (to_call x)) ++ more_tokens (map to_call rest)) with ([","] :: (tokens (to_call x) ++ more_tokens (map to_call rest))).
        cbn [app]. rewrite <- app_assoc. change (txt ", ") with ([","] ++ [" "]). rewrite <- !app_assoc. apply (sp0 [","]).
        specialize (IH x Hx Ax Hrest Arest). cbn [app] in *. destruct (tokens (to_call x)) as [|k ks] eqn:Tk.
        + exfalso. assert (K := accepted_ok x Ax). inversion K as [v V E|n a args Nn Ka Kr E]; rewrite <- E in Tk; [|rewrite tokens_call in Tk; discriminate].
          destruct v; discriminate.
        + cbn [app] in *. apply spaced_space. exact IH. }
    exact (X a r Ha Aa Hr Ar).
Qed.
Definition is_app (p : printed) : Prop := match p with PApp _ _ => True | _ => False end.
Lemma accepted_parse : forall p, is_app p -> accepted p -> parse (render p) = Some (to_call p).
Proof.
  intros p Ia A. apply C50_parse. split; [destruct p; cbn in *; tauto|]. split; [exact (accepted_ok p A)|].
  pose proof (accepted_spaced p A [] [] (sp_nil [] eq_refl)) as Sp. rewrite !app_nil_r in Sp. exact Sp.
Qed.

(** Conversely a printed text that is read at all is accepted.  What sympy can print: *)
Definition pyident (k : text) : Prop := exists c r, k = c :: r /\ (alpha c || Ascii.eqb c "_") = true /\ forallb idchar r = true.
Fixpoint sane (p : printed) : Prop :=
  match p with
  | PInt k => integer k
  | PStr _ => True
  | PKeyInt n k => keyword n /\ integer k
  | PKeyBool n _ => pyident n
  | PName n => ident n
  | PApp f args => ident f /\ (fix all l := match l with [] => True | x :: r => sane x /\ all r end) args
  end.
Lemma sane_all : forall args, (fix all l := match l with [] => True | x :: r => sane x /\ all r end) args <-> Forall sane args.
Proof. induction args as [|a r IH]; [split; [constructor|auto]|]. rewrite IH. split; [intros [A B]; constructor; assumption|intros F; inversion F; auto]. Qed.

Lemma skipws_sp : forall s, skipws (" " :: s) = skipws s. Proof. reflexivity. Qed.
(** recognisers look through leading white space *)
Lemma m_value_skip : forall s, m_value (" " :: s) = m_value s. Proof. reflexivity. Qed.
Lemma m_expr_skip : forall f s, m_expr f (" " :: s) = m_expr f s. Proof. intros [|f] s; reflexivity. Qed.
Lemma m_item_skip : forall f s, m_item f (" " :: s) = m_item f s.
Proof. intros [|f] s; [reflexivity|]. cbn [m_item]. rewrite m_value_skip. destruct (m_value s); [reflexivity|]. apply m_expr_skip. Qed.

(** Strings that are not labels are not read. *)
Lemma repr_mismatch : forall a c x w y, no_quote a -> Ascii.eqb c "'" = false -> Forall (fun d => d <> c) w -> a ++ c :: x = w ++ "'" :: y -> False.
Proof.
  induction a as [|d a IH]; intros c x [|e w] y N C W E; cbn in E.
  - injection E as -> _. discriminate.
  - injection E as -> _. inversion W. congruence.
  - injection E as -> _. inversion N as [|? ? X _]. discriminate.
  - injection E as -> E. inversion N. inversion W. subst. exact (IH c x w y H2 C H6 E).
Qed.
Lemma escape_split : forall k, (flat_map escape k = k /\ no_quote k) \/ exists a x, no_quote a /\ flat_map escape k = a ++ "\" :: x.
Proof.
  induction k as [|c k IH]; [left; split; [reflexivity|exact (Forall_nil _)]|]. cbn [flat_map].
  assert (Ec : escape c = if Ascii.eqb c "\" then ["\"; "\"] else if Ascii.eqb c "'" then ["\"; "'"] else [c]) by reflexivity. rewrite Ec.
  destruct (Ascii.eqb c "\") eqn:B.
  - right. exists [], ("\" :: flat_map escape k). split; [exact (Forall_nil _)|reflexivity].
  - destruct (Ascii.eqb c "'") eqn:Q; [right; exists [], ("'" :: flat_map escape k); split; [exact (Forall_nil _)|reflexivity]|].
    destruct IH as [[E N]|[a [x [N E]]]].
    + left. cbn. rewrite E. split; [reflexivity|constructor; assumption].
    + right. exists (c :: a), x. cbn. rewrite E. split; [constructor; assumption|reflexivity].
Qed.
Lemma label_backslash : forall w, label w -> Forall (fun d => d <> "\") w.
Proof.
  intros w L. apply Forall_forall. intros d I ->. destruct L as [[D|[r [-> D]]]|[_ W]].
  - pose proof (proj1 (forallb_forall _ _) (decimal_strchar w D) _ I). discriminate.
  - destruct I as [I|I]; [discriminate|]. pose proof (proj1 (forallb_forall _ _) (decimal_strchar r D) _ I). discriminate.
  - pose proof (proj1 (forallb_forall _ _) W _ I). discriminate.
Qed.
Lemma label_no_quote : forall w, label w -> no_quote w.
Proof. intros w [L|L]; [exact (number_no_quote w L)|exact (word_no_quote w (proj2 L))]. Qed.
Lemma repr_read : forall k s w r, label w -> pyrepr k ++ s = quoted w ++ r -> label k /\ r = s.
Proof.
  intros k s w r L E. unfold pyrepr in E. destruct (_ && _); [discriminate|]. unfold quoted in E. cbn in E. injection E as E.
  rewrite <- !app_assoc in E. cbn in E. destruct (escape_split k) as [[Ek N]|[a [x [N Ek]]]]; rewrite Ek in E.
  - destruct (quote_unique k w s r N (label_no_quote w L) E) as [-> ->]. auto.
  - rewrite <- app_assoc in E. cbn in E. exfalso. exact (repr_mismatch a "\" _ w r N eq_refl (label_backslash w L) E).
Qed.
Lemma repr_head : forall k s, exists c r, pyrepr k ++ s = c :: r /\ white c = false /\ alpha c = false /\ digit c = false /\ Ascii.eqb c "-" = false.
Proof. intros k s. unfold pyrepr. destruct (_ && _); cbn; eexists; eexists; (split; [reflexivity|]); auto. Qed.
Lemma not_name : forall f c r s, skipws s = c :: r -> alpha c = false -> m_expr f s = None.
Proof. intros [|f] c r s E A; [reflexivity|]. cbn [m_expr]. unfold m_id. rewrite E, A. reflexivity. Qed.
Lemma str_item : forall f k s t r, m_item f (pyrepr k ++ s) = Some (t, r) -> label k /\ r = s.
Proof.
  intros [|f] k s t r; [discriminate|]. cbn [m_item]. destruct (repr_head k s) as [c [x [E [W [A [D Dash]]]]]].
  assert (Ew : skipws (pyrepr k ++ s) = pyrepr k ++ s) by (rewrite E; apply (skipws_id (c :: x)); exact W).
  assert (P : m_pair (pyrepr k ++ s) = None).
  { unfold m_pair, m_param. rewrite Ew, E. destruct (lower c) eqn:Lo; [rewrite (lower_alpha c Lo) in A; discriminate|reflexivity]. }
  destruct (m_value (pyrepr k ++ s)) as [[v r']|] eqn:V.
  - intros H. injection H as <- <-. unfold m_value in V. rewrite P in V.
    rewrite (int_none c x (pyrepr k ++ s)) in V; [|rewrite Ew; exact E|exact D|exact Dash].
    destruct (m_float (pyrepr k ++ s)) as [[w q]|] eqn:Fl.
    + injection V as <- <-. destruct (float_sound _ _ _ Fl) as [K X]. rewrite Ew in X. exact (repr_read k s w q (or_introl K) X).
    + destruct (m_str (pyrepr k ++ s)) as [[w q]|] eqn:St; [|discriminate]. injection V as <- <-. destruct (str_sound _ _ _ St) as [K X].
      rewrite Ew in X. exact (repr_read k s w q (or_intror K) X).
  - rewrite (not_name f c x); [discriminate|rewrite Ew; exact E|exact A].
Qed.

(** What follows an argument. *)
Definition ended (s : text) : Prop := match s with [] => True | c :: _ => delimiter c end.
Lemma ended_stops : forall s, ended s -> stops idchar s /\ stops alpha s /\ stops digit s.
Proof. intros [|c s]; cbn; [auto|]. intros D. destruct (delimiter_facts c D) as [A [B [C E]]]. auto. Qed.
Lemma ended_char : forall s c, ended s -> c <> "," -> c <> ")" -> white c = false -> m_char c s = None.
Proof.
  intros [|d s] c E N1 N2 W; [reflexivity|]. unfold m_char. cbn in E. destruct (delimiter_facts d E) as [_ [Wd _]]. cbn. rewrite Wd.
  destruct (Ascii.eqb d c) eqn:Q; [|reflexivity]. apply Ascii.eqb_eq in Q. destruct E as [E|E]; subst; congruence.
Qed.
Lemma idtext_none : forall k n2 s, Ascii.eqb k "=" = true \/ Ascii.eqb k "(" = true -> forallb idchar n2 = true -> n2 <> [] -> m_char k (n2 ++ s) = None.
Proof.
  intros k [|d n2] s K F N; [congruence|]. cbn in F. apply andb_true_iff in F. destruct F as [F _]. unfold m_char. cbn. rewrite (idchar_white d F).
  destruct K as [K|K]; apply Ascii.eqb_eq in K; subst k; [rewrite (idchar_equal d F)|rewrite (idchar_open d F)]; reflexivity.
Qed.
Lemma ident_read : forall n s, ident n -> stops idchar s -> m_id (n ++ s) = Some (n, s).
Proof.
  intros n s [c [r [-> [A F]]]] St. unfold m_id. cbn [app skipws]. rewrite (alpha_white c A), A, (span_app idchar r s F St). reflexivity.
Qed.
Lemma ident_skip : forall n s, ident n -> exists c r, n = c :: r /\ skipws (n ++ s) = c :: r ++ s /\ alpha c = true /\ forallb idchar r = true.
Proof. intros n s [c [r [-> [A F]]]]. exists c, r. cbn. rewrite (alpha_white c A). auto. Qed.
(** a name followed by something other than an equal sign is not a value *)
Lemma ident_not_value : forall n s, ident n -> stops alpha s -> m_char "=" s = None -> m_value (n ++ s) = None.
Proof.
  intros n s I St Eq. destruct (ident_skip n s I) as [c [r [-> [E [A F]]]]]. apply (name_not_value c (r ++ s) _ E A). intros a b Er Fa Sb.
  destruct (app_split alpha idchar r s a b F Er Fa St Sb) as [n2 [_ [-> F2]]]. destruct n2 as [|d n2]; [exact Eq|].
  apply idtext_none; [left; reflexivity|exact F2|discriminate].
Qed.
Lemma name_item : forall f n s, ident n -> ended s -> m_item f (n ++ s) = None.
Proof.
  intros [|f] n s I E; [reflexivity|]. destruct (ended_stops s E) as [Si [Sa _]]. cbn [m_item].
  rewrite (ident_not_value n s I Sa (ended_char s "=" E ltac:(discriminate) ltac:(discriminate) eq_refl)).
  destruct f as [|f]; [reflexivity|]. cbn [m_expr]. rewrite (ident_read n s I Si), (ended_char s "(" E); [reflexivity|discriminate|discriminate|reflexivity].
Qed.
Lemma pyident_head : forall n s, pyident n -> exists c r, n = c :: r /\ skipws (n ++ s) = c :: r ++ s /\ (alpha c || Ascii.eqb c "_") = true /\ forallb idchar r = true.
Proof.
  intros n s [c [r [-> [A F]]]]. exists c, r. split; [reflexivity|]. split; [|auto]. cbn. rewrite idchar_white; [reflexivity|].
  unfold idchar. apply orb_true_iff in A. destruct A as [A|A]; rewrite A; [reflexivity|]. apply orb_true_r.
Qed.
Lemma integer_read : forall k s, integer k -> stops digit s -> m_int (k ++ s) = Some (k, s).
Proof.
  intros k s K St. destruct K as [K|[r [-> K]]].
  - destruct (natural_head k K) as [c [r [E D]]]. subst k. unfold m_int. cbn [app skipws]. rewrite (digit_white c D), (digit_dash c D).
    exact (nat_complete (c :: r) s K St).
  - unfold m_int. cbn [app skipws]. change (white "-") with false. cbv iota. change (Ascii.eqb "-" "-") with true. cbv iota.
    rewrite (nat_complete r s K St). reflexivity.
Qed.
Lemma int_item : forall f k s t r, integer k -> ended s -> m_item f (k ++ s) = Some (t, r) -> r = s.
Proof.
  intros [|f] k s t r K E; [discriminate|]. cbn [m_item]. unfold m_value. rewrite (integer_read k s K (proj2 (proj2 (ended_stops s E)))).
  intros H. injection H. auto.
Qed.
Lemma keyword_pyident : forall n, keyword n -> pyident n.
Proof.
  intros n [c [r [-> [A F]]]]. exists c, r. split; [reflexivity|]. split; [rewrite (lower_alpha c A); reflexivity|].
  apply forallb_forall. intros d I. apply alpha_idchar, (proj1 (forallb_forall _ _) F d I).
Qed.
(** a keyword argument is read only if its name is a keyword *)
Lemma key_item : forall f n s t r, pyident n -> m_item f (n ++ "=" :: s) = Some (t, r) -> keyword n /\ exists v, m_pair (n ++ "=" :: s) = Some (v, r).
Proof.
  intros [|f] n s t r I; [discriminate|]. cbn [m_item]. destruct (pyident_head n ("=" :: s) I) as [c [x [-> [E [A F]]]]].
  set (code := (c :: x) ++ "=" :: s) in *.
  assert (NE : m_expr f code = None).
  { destruct (alpha c) eqn:Al; [|exact (not_name f c _ code E Al)]. destruct f as [|f]; [reflexivity|]. cbn [m_expr]. unfold code.
    rewrite (ident_read (c :: x) ("=" :: s)); [reflexivity|exists c, x; auto|reflexivity]. }
  assert (V : m_value code = m_pair code).
  { unfold m_value. destruct (alpha c) eqn:Al.
    - destruct (lower_start code c _ E Al) as [I1 [I2 I3]]. rewrite I1, I2, I3. reflexivity.
    - cbn in A. apply Ascii.eqb_eq in A. subst c. rewrite (int_none "_" _ code E eq_refl eq_refl). unfold m_float, m_str. rewrite E.
      destruct (x ++ "=" :: s); reflexivity. }
  rewrite V, NE. destruct (m_pair code) as [[v r']|] eqn:P; [|discriminate]. intros H. injection H as <- <-. split; [|exists v; reflexivity].
  unfold m_pair, m_param in P. rewrite E in P. destruct (lower c) eqn:Lo; [|discriminate]. destruct (span alpha (x ++ "=" :: s)) as [a b] eqn:Sp.
  destruct (span_sound _ _ _ _ Sp) as [Ex [Fa Sb]].
  destruct (app_split alpha idchar x ("=" :: s) a b F Ex Fa eq_refl Sb) as [n2 [Ea [Eb F2]]]. destruct n2 as [|d n2].
  - rewrite app_nil_r in Ea. subst a. exists c, x. auto.
  - rewrite Eb, (idtext_none "=" (d :: n2) _ (or_introl eq_refl) F2 ltac:(discriminate)) in P. discriminate.
Qed.
Lemma bool_read : forall b s, m_int (bool_text b ++ s) = None /\ m_bool (bool_text b ++ s) = Some (b, s).
Proof. intros [] s; split; reflexivity. Qed.
Lemma keybool_item : forall f n b s t r, pyident n -> m_item f ((n ++ "=" :: bool_text b) ++ s) = Some (t, r) -> keyword n /\ r = s.
Proof.
  intros f n b s t r I. rewrite <- app_assoc. cbn [app]. intros H. destruct (key_item f n _ t r I H) as [K [v P]]. split; [exact K|].
  unfold m_pair in P. destruct K as [c [x [-> [Lo F]]]]. unfold m_param in P. cbn [app skipws] in P. rewrite (alpha_white c (lower_alpha c Lo)), Lo in P.
  rewrite (span_app alpha x ("=" :: bool_text b ++ s) F eq_refl) in P. unfold m_char in P. cbn [skipws] in P. change (white "=") with false in P. cbv iota in P.
  change (Ascii.eqb "=" "=") with true in P. cbv iota in P. destruct (bool_read b s) as [I1 B1]. rewrite I1, B1 in P. injection P. auto.
Qed.
Lemma keyint_item : forall f n k s t r, pyident n -> integer k -> ended s -> m_item f ((n ++ "=" :: k) ++ s) = Some (t, r) -> keyword n /\ r = s.
Proof.
  intros f n k s t r I K E. rewrite <- app_assoc. cbn [app]. intros H. destruct (key_item f n _ t r I H) as [Kn [v P]]. split; [exact Kn|].
  unfold m_pair in P. destruct Kn as [c [x [-> [Lo F]]]]. unfold m_param in P. cbn [app skipws] in P. rewrite (alpha_white c (lower_alpha c Lo)), Lo in P.
  rewrite (span_app alpha x ("=" :: k ++ s) F eq_refl) in P. unfold m_char in P. cbn [skipws] in P. change (white "=") with false in P. cbv iota in P.
  change (Ascii.eqb "=" "=") with true in P. cbv iota in P. rewrite (integer_read k s K (proj2 (proj2 (ended_stops s E)))) in P. injection P. auto.
Qed.

Definition item_reads (p : printed) : Prop := sane p -> forall f s t r, ended s -> m_item f (render p ++ s) = Some (t, r) -> accepted p /\ r = s.
Lemma join_cons : forall x y l, join (x :: y :: l) = x ++ txt ", " ++ join (y :: l). Proof. reflexivity. Qed.
Lemma more_reads : forall rest, Forall item_reads rest -> Forall sane rest -> forall f s args r r',
  m_more f (flat_map (fun p => txt ", " ++ render p) rest ++ ")" :: s) = (args, r) -> m_char ")" r = Some r' -> Forall accepted rest /\ r' = s.
Proof.
  induction rest as [|p rest IH]; intros FI FS f s args r r' M C.
  - cbn [flat_map app] in M. assert (E : r = ")" :: s) by (destruct f as [|f]; cbn in M; injection M; auto). subst r. cbn in C. injection C as <-. auto.
  - inversion FI as [|? ? Ip Ir]. inversion FS as [|? ? Sp Sr]. subst. cbn [flat_map] in M. rewrite <- !app_assoc in M.
    change (txt ", ") with [","; " "] in M at 1. cbn [app] in M.
    set (tail := flat_map (fun p => txt ", " ++ render p) rest ++ ")" :: s) in *.
    assert (Et : ended tail) by (unfold tail; destruct rest as [|q rest]; cbn; [right|left]; reflexivity).
    destruct f as [|f]; cbn [m_more] in M; [injection M as <- <-; discriminate|].
    replace (m_char "," ("," :: " " :: render p ++ tail)) with (Some (" " :: render p ++ tail)) in M by reflexivity. rewrite m_item_skip in M.
    destruct (m_item f (render p ++ tail)) as [[a r1]|] eqn:It; [|injection M as <- <-; discriminate].
    destruct (Ip Sp f tail a r1 Et It) as [Ap ->]. destruct (m_more f tail) as [args' r2] eqn:M2. injection M as <- <-.
    destruct (IH Ir Sr f s args' r2 r' M2 C) as [Ar ->]. auto.
Qed.
Lemma join_flat : forall rest p, join (map render (p :: rest)) = render p ++ flat_map (fun p => txt ", " ++ render p) rest.
Proof.
  induction rest as [|q rest IH]; intros p; [cbn; rewrite app_nil_r; reflexivity|].
  change (join (map render (p :: q :: rest))) with (render p ++ txt ", " ++ join (map render (q :: rest))). rewrite IH. cbn [flat_map].
  rewrite <- app_assoc. reflexivity.
Qed.
Lemma app_reads : forall f args, Forall item_reads args -> ident f -> Forall sane args -> forall n s t r,
  m_expr n (render (PApp f args) ++ s) = Some (t, r) -> accepted (PApp f args) /\ r = s.
Proof.
  intros f args H I FS n s t r. destruct n as [|n]; [discriminate|]. cbn [m_expr render]. rewrite <- app_assoc. cbn [app].
  rewrite (ident_read f ("(" :: _) I eq_refl). replace (m_char "(" ("(" :: (join (map render args) ++ [")"]) ++ s)) with (Some ((join (map render args) ++ [")"]) ++ s)) by reflexivity.
  rewrite <- app_assoc. cbn [app]. destruct args as [|p rest].
  - cbn [map join app]. assert (N : m_item n (")" :: s) = None) by (destruct n as [|[|n]]; destruct s; reflexivity). rewrite N. discriminate.
  - rewrite join_flat, <- app_assoc. inversion H as [|? ? Hp Hr]. inversion FS as [|? ? Sp Sr]. subst.
    set (tail := flat_map (fun p => txt ", " ++ render p) rest ++ ")" :: s).
    assert (Et : ended tail) by (unfold tail; destruct rest as [|q rest]; cbn; [right|left]; reflexivity).
    destruct (m_item n (render p ++ tail)) as [[a r1]|] eqn:It; [|discriminate]. destruct (Hp Sp n tail a r1 Et It) as [Ap ->].
    destruct (m_more n tail) as [args' r2] eqn:M. destruct (m_char ")" r2) as [r3|] eqn:C; [|discriminate]. intros X. injection X as <- <-.
    destruct (more_reads rest Hr Sr n s args' r2 r3 M C) as [Ar ->]. split; [|reflexivity]. cbn [accepted]. split; [exact I|]. split; [discriminate|].
    split; [exact Ap|]. apply accepted_all. exact Ar.
Qed.
Lemma all_read : forall p, item_reads p.
Proof.
  apply printed_ind'; unfold item_reads; cbn [sane].
  - intros k K f s t r E M. split; [exact K|exact (int_item f k s t r K E M)].
  - intros k _ f s t r E M. exact (str_item f k s t r M).
  - intros n k [Kn K] f s t r E M. destruct (keyint_item f n k s t r (keyword_pyident n Kn) K E M) as [A B]. repeat split; assumption.
  - intros n b I f s t r E M. exact (keybool_item f n b s t r I M).
  - intros n I f s t r E M. cbn [render] in M. rewrite (name_item f n s I E) in M. discriminate.
  - intros g args H [I A] f s t r E M. apply sane_all in A. destruct f as [|f]; [discriminate|]. cbn [m_item] in M.
    assert (V : m_value (render (PApp g args) ++ s) = None).
    { cbn [render]. rewrite <- app_assoc. apply ident_not_value; [exact I|reflexivity|reflexivity]. }
    rewrite V in M. exact (app_reads g args H I A f s t r M).
Qed.
(** A text that sympy prints is read back exactly when it is accepted. *)
Lemma parse_printed : forall p, sane p -> (parse_expr_fn (render p) = true <-> accepted p /\ is_app p) .
Proof.
  intros p Sa. split.
  - intros H. assert (Ia : is_app p).
    { unfold parse_expr_fn, parse in H. destruct p as [k|k|n k|n b|n|f args]; cbn [is_app]; try exact I; exfalso; cbn [render sane] in *.
      - destruct Sa as [K|[r [-> K]]].
        + destruct (natural_head k K) as [c [r [-> D]]]. rewrite (not_name _ c r) in H; [discriminate|cbn; rewrite (digit_white c D); reflexivity|exact (digit_alpha c D)].
        + rewrite (not_name _ "-" r) in H; [discriminate|reflexivity|reflexivity].
      - destruct (repr_head k []) as [c [r [E [W [A _]]]]]. rewrite app_nil_r in E. rewrite (not_name _ c r) in H; [discriminate|rewrite E; cbn; rewrite W; reflexivity|exact A].
      - destruct Sa as [[c [x [-> [Lo F]]]] K]. cbn [m_expr Nat.add] in H. rewrite (ident_read (c :: x) ("=" :: k)) in H; [discriminate| |reflexivity].
        exists c, x. repeat split; [exact (lower_alpha c Lo)|]. apply forallb_forall. intros d Id. apply alpha_idchar, (proj1 (forallb_forall _ _) F d Id).
      - destruct Sa as [c [x [-> [A F]]]]. destruct (alpha c) eqn:Al.
        + cbn [m_expr Nat.add] in H. rewrite (ident_read (c :: x) ("=" :: bool_text b)) in H; [discriminate| |reflexivity]. exists c, x. auto.
        + cbn in A. apply Ascii.eqb_eq in A. subst c. rewrite (not_name _ "_" (x ++ "=" :: bool_text b)) in H; [discriminate|reflexivity|reflexivity].
      - cbn [m_expr Nat.add] in H. rewrite <- (app_nil_r n) in H at 1. rewrite (ident_read n [] Sa I) in H. discriminate. }
    split; [|exact Ia]. destruct p as [| | | | |f args]; try contradiction. cbn [sane] in Sa. destruct Sa as [If A]. apply sane_all in A.
    unfold parse_expr_fn, parse in H. destruct (m_expr _ (render (PApp f args))) as [[t r]|] eqn:E; [|discriminate].
    rewrite <- (app_nil_r (render (PApp f args))) in E at 2.
    apply (app_reads f args ltac:(apply Forall_forall; intros q _; apply all_read) If A _ [] t r E).
  - intros [A Ia]. unfold parse_expr_fn. rewrite (accepted_parse p Ia A). reflexivity.
Qed.
