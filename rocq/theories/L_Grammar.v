(** The parser of M_Grammar against the description of S_Grammar: every recogniser is sound and complete for its token. *)
From Coq Require Import List Ascii Bool Arith Lia String.
From Coq Require Import List.
From Verif Require Import S_Grammar M_Grammar.
Import ListNotations.
Open Scope char_scope.
Open Scope list_scope.

(** Facts about single characters, by cases. *)
Ltac chars := intros c; destruct c as [[] [] [] [] [] [] [] []]; vm_compute; intros; congruence.
Lemma white_idchar : forall c, white c = true -> idchar c = false. Proof. chars. Qed.
Lemma white_strchar : forall c, white c = true -> strchar c = false. Proof. chars. Qed.
Lemma white_alpha : forall c, white c = true -> alpha c = false. Proof. chars. Qed.
Lemma white_lower : forall c, white c = true -> lower c = false. Proof. chars. Qed.
Lemma white_digit : forall c, white c = true -> digit c = false. Proof. chars. Qed.
Lemma alpha_white : forall c, alpha c = true -> white c = false. Proof. chars. Qed.
Lemma lower_alpha : forall c, lower c = true -> alpha c = true. Proof. chars. Qed.
Lemma alpha_idchar : forall c, alpha c = true -> idchar c = true. Proof. chars. Qed.
Lemma idchar_strchar : forall c, idchar c = true -> strchar c = true. Proof. chars. Qed.
Lemma idchar_white : forall c, idchar c = true -> white c = false. Proof. chars. Qed.
Lemma idchar_equal : forall c, idchar c = true -> Ascii.eqb c "=" = false. Proof. chars. Qed.
Lemma idchar_open : forall c, idchar c = true -> Ascii.eqb c "(" = false. Proof. chars. Qed.
Lemma digit_white : forall c, digit c = true -> white c = false. Proof. chars. Qed.
Lemma digit_quote : forall c, digit c = true -> Ascii.eqb c "'" = false. Proof. chars. Qed.
Lemma digit_dash : forall c, digit c = true -> Ascii.eqb c "-" = false. Proof. chars. Qed.
Lemma digit1_digit : forall c, digit1 c = true -> digit c = true. Proof. chars. Qed.
Lemma digit1_zero : forall c, digit1 c = true -> Ascii.eqb c "0" = false. Proof. chars. Qed.
Lemma digit_alpha : forall c, digit c = true -> alpha c = false. Proof. chars. Qed.
Lemma alpha_digit : forall c, alpha c = true -> digit c = false. Proof. chars. Qed.
Lemma alpha_digit1 : forall c, alpha c = true -> digit1 c = false. Proof. chars. Qed.
Lemma alpha_zero : forall c, alpha c = true -> Ascii.eqb c "0" = false. Proof. chars. Qed.
Lemma alpha_dash : forall c, alpha c = true -> Ascii.eqb c "-" = false. Proof. chars. Qed.
Lemma alpha_quote : forall c, alpha c = true -> Ascii.eqb c "'" = false. Proof. chars. Qed.
Lemma strchar_quote : forall c, strchar c = true -> Ascii.eqb c "'" = false. Proof. chars. Qed.
Lemma strchar_dash : forall c, strchar c = true -> Ascii.eqb c "-" = false. Proof. chars. Qed.
Lemma digit_strchar : forall c, digit c = true -> strchar c = true. Proof. chars. Qed.
Lemma digit_idchar : forall c, digit c = true -> idchar c = true. Proof. chars. Qed.

Definition stops (p : ascii -> bool) (s : text) : Prop := match s with c :: _ => p c = false | [] => True end.

Lemma span_app : forall p a s, forallb p a = true -> stops p s -> span p (a ++ s) = (a, s).
Proof.
  intros p a s. induction a as [|c a IH]; cbn [app span forallb]; intros F St.
  - destruct s as [|c r]; [reflexivity|]. cbn in *. rewrite St. reflexivity.
  - apply andb_true_iff in F. destruct F as [Fc Fa]. rewrite Fc, (IH Fa St). reflexivity.
Qed.
Lemma span_sound : forall p s a b, span p s = (a, b) -> s = a ++ b /\ forallb p a = true /\ stops p b.
Proof.
  intros p s. induction s as [|c s IH]; cbn; intros a b E.
  - injection E as <- <-. repeat split.
  - destruct (p c) eqn:P.
    + destruct (span p s) as [a' b'] eqn:S'. injection E as <- <-. destruct (IH _ _ eq_refl) as [-> [F St]].
      cbn. rewrite P, F. auto.
    + injection E as <- <-. cbn. auto.
Qed.

Lemma skipws_white : forall w s, forallb white w = true -> skipws (w ++ s) = skipws s.
Proof. intros w s. induction w as [|c w IH]; cbn; intros F; [reflexivity|]. apply andb_true_iff in F. destruct F as [-> F]. auto. Qed.
Lemma skipws_split : forall s, exists w, forallb white w = true /\ s = w ++ skipws s.
Proof.
  induction s as [|c s [w [Fw E]]]; [exists []; auto|]. cbn. destruct (white c) eqn:W.
  - exists (c :: w). cbn. rewrite W, Fw. split; [reflexivity|]. f_equal. exact E.
  - exists []. auto.
Qed.
Lemma skipws_stops : forall s, stops white (skipws s).
Proof. induction s as [|c s IH]; cbn; [exact I|]. destruct (white c) eqn:W; [exact IH|exact W]. Qed.
Lemma skipws_id : forall s, stops white s -> skipws s = s.
Proof. intros [|c s]; cbn; intros St; [reflexivity|]. rewrite St. reflexivity. Qed.
Lemma skipws_all : forall w, skipws w = [] <-> forallb white w = true.
Proof.
  induction w as [|c w IH]; cbn; [tauto|]. destruct (white c); cbn; [exact IH|]. split; discriminate.
Qed.

(** Reading one token off a spaced text, and back. *)
Lemma spaced_read : forall c k l s, white c = false -> spaced ((c :: k) :: l) s -> exists s', skipws s = c :: k ++ s' /\ spaced l s'.
Proof.
  intros c k l s W Sp. inversion Sp as [|w k' l' s' Fw Sp' E1 E2]. subst. exists s'. split; [|exact Sp'].
  rewrite skipws_white by exact Fw. apply (skipws_id (c :: k ++ s')). exact W.
Qed.
Lemma spaced_write : forall k l s s', skipws s = k ++ s' -> spaced l s' -> spaced (k :: l) s.
Proof.
  intros k l s s' E Sp. destruct (skipws_split s) as [w [Fw Ew]]. rewrite Ew, E. apply sp_cons; assumption.
Qed.
Lemma spaced_stops : forall p c k l s, (forall d, white d = true -> p d = false) -> p c = false -> spaced ((c :: k) :: l) s -> stops p s.
Proof.
  intros p c k l s Hw Hc Sp. inversion Sp as [|w k' l' s' Fw Sp' E1 E2]. subst.
  destruct w as [|d w]; cbn; [exact Hc|]. cbn in Fw. apply andb_true_iff in Fw. apply Hw, Fw.
Qed.

Lemma char_complete : forall k l s, white k = false -> spaced ([k] :: l) s -> exists s', m_char k s = Some s' /\ spaced l s'.
Proof.
  intros k l s W Sp. destruct (spaced_read k [] l s W Sp) as [s' [E Sp']]. exists s'. unfold m_char. rewrite E. cbn.
  rewrite Ascii.eqb_refl. auto.
Qed.
Lemma char_none : forall k c r l s, white c = false -> Ascii.eqb c k = false -> spaced ((c :: r) :: l) s -> m_char k s = None.
Proof.
  intros k c r l s W N Sp. destruct (spaced_read c r l s W Sp) as [s' [E Sp']]. unfold m_char. rewrite E, N. reflexivity.
Qed.
Lemma char_sound : forall k s s', m_char k s = Some s' -> forall l, spaced l s' -> spaced ([k] :: l) s.
Proof.
  intros k s s'. unfold m_char. destruct (skipws s) as [|c r] eqn:E; [discriminate|]. destruct (Ascii.eqb c k) eqn:Q; [|discriminate].
  apply Ascii.eqb_eq in Q. subst c. intros H. injection H as <-. intros l Sp. apply (spaced_write [k] l s r); assumption.
Qed.

Lemma id_complete : forall n l s, ident n -> spaced (n :: ["("] :: l) s -> exists s', m_id s = Some (n, s') /\ spaced (["("] :: l) s'.
Proof.
  intros n l s [c [r [-> [A F]]]] Sp. destruct (spaced_read c r _ s (alpha_white c A) Sp) as [s' [E Sp']].
  exists s'. split; [|exact Sp']. unfold m_id. rewrite E, A.
  rewrite (span_app idchar r s' F (spaced_stops idchar "(" [] l s' white_idchar eq_refl Sp')). reflexivity.
Qed.
Lemma id_sound : forall s n s', m_id s = Some (n, s') -> ident n /\ forall l, spaced l s' -> spaced (n :: l) s.
Proof.
  intros s n s'. unfold m_id. destruct (skipws s) as [|c r] eqn:E; [discriminate|]. destruct (alpha c) eqn:A; [|discriminate].
  destruct (span idchar r) as [a b] eqn:Sp. intros H. injection H as <- <-. destruct (span_sound _ _ _ _ Sp) as [-> [F _]]. split.
  - exists c, a. auto.
  - intros l Spl. apply (spaced_write (c :: a) l s b); assumption.
Qed.

Lemma param_complete : forall n l s, keyword n -> spaced (n :: ["="] :: l) s -> exists s', m_param s = Some (n, s') /\ spaced (["="] :: l) s'.
Proof.
  intros n l s [c [r [-> [A F]]]] Sp. destruct (spaced_read c r _ s (alpha_white c (lower_alpha c A)) Sp) as [s' [E Sp']].
  exists s'. split; [|exact Sp']. unfold m_param. rewrite E, A.
  rewrite (span_app alpha r s' F (spaced_stops alpha "=" [] l s' white_alpha eq_refl Sp')). reflexivity.
Qed.
Lemma param_sound : forall s n s', m_param s = Some (n, s') -> keyword n /\ forall l, spaced l s' -> spaced (n :: l) s.
Proof.
  intros s n s'. unfold m_param. destruct (skipws s) as [|c r] eqn:E; [discriminate|]. destruct (lower c) eqn:A; [|discriminate].
  destruct (span alpha r) as [a b] eqn:Sp. intros H. injection H as <- <-. destruct (span_sound _ _ _ _ Sp) as [-> [F _]]. split.
  - exists c, a. auto.
  - intros l Spl. apply (spaced_write (c :: a) l s b); assumption.
Qed.

Lemma nat_complete : forall k s, natural k -> stops digit s -> m_nat (k ++ s) = Some (k, s).
Proof.
  intros k s [->|[c [r [-> [D F]]]]] St; [reflexivity|]. cbn. rewrite (digit1_zero c D), D, (span_app digit r s F St). reflexivity.
Qed.
Lemma nat_sound : forall s k s', m_nat s = Some (k, s') -> natural k /\ s = k ++ s'.
Proof.
  intros [|c r] k s'; cbn; [discriminate|]. destruct (Ascii.eqb c "0") eqn:Z.
  - apply Ascii.eqb_eq in Z. subst. intros H. injection H as <- <-. split; [left; reflexivity|reflexivity].
  - destruct (digit1 c) eqn:D; [|discriminate]. destruct (span digit r) as [a b] eqn:Sp. intros H. injection H as <- <-.
    destruct (span_sound _ _ _ _ Sp) as [-> [F _]]. split; [right; exists c, a; auto|reflexivity].
Qed.
Lemma natural_head : forall k, natural k -> exists c r, k = c :: r /\ digit c = true.
Proof. intros k [->|[c [r [-> [D _]]]]]; [exists "0", []; auto|]. exists c, r. split; [reflexivity|exact (digit1_digit c D)]. Qed.
Lemma int_complete : forall k d l s, integer k -> digit d = false -> spaced (k :: [d] :: l) s -> exists s', m_int s = Some (k, s') /\ spaced ([d] :: l) s'.
Proof.
  intros k d l s K D Sp. destruct K as [K|[r [-> K]]].
  - destruct (natural_head k K) as [c [r [E Dc]]]. subst k. destruct (spaced_read c r _ s (digit_white c Dc) Sp) as [s' [E Sp']].
    exists s'. split; [|exact Sp']. unfold m_int. rewrite E, (digit_dash c Dc). apply (nat_complete (c :: r) s' K).
    exact (spaced_stops digit d [] l s' white_digit D Sp').
  - destruct (spaced_read "-" r _ s eq_refl Sp) as [s' [E Sp']].
    exists s'. split; [|exact Sp']. unfold m_int. rewrite E. cbn [Ascii.eqb]. change (Ascii.eqb "-" "-") with true. cbv iota.
    rewrite (nat_complete r s' K (spaced_stops digit d [] l s' white_digit D Sp')). reflexivity.
Qed.
Lemma int_sound : forall s k s', m_int s = Some (k, s') -> integer k /\ forall l, spaced l s' -> spaced (k :: l) s.
Proof.
  intros s k s'. unfold m_int. destruct (skipws s) as [|c r] eqn:E; [discriminate|]. destruct (Ascii.eqb c "-") eqn:Q.
  - apply Ascii.eqb_eq in Q. subst c. destruct (m_nat r) as [[a b]|] eqn:N; [|discriminate]. intros H. injection H as <- <-.
    destruct (nat_sound _ _ _ N) as [K ->]. split; [right; exists a; auto|]. intros l Sp. apply (spaced_write ("-" :: a) l s b); assumption.
  - intros N. destruct (nat_sound _ _ _ N) as [K E']. split; [left; exact K|]. intros l Sp. apply (spaced_write k l s s'); [|assumption].
    rewrite E. exact E'.
Qed.
Lemma int_none : forall c r s, skipws s = c :: r -> digit c = false -> Ascii.eqb c "-" = false -> m_int s = None.
Proof.
  intros c r s E D Q. unfold m_int. rewrite E, Q. unfold m_nat.
  assert (Z : Ascii.eqb c "0" = false) by (destruct (Ascii.eqb c "0") eqn:Z; [apply Ascii.eqb_eq in Z; subst; discriminate|reflexivity]).
  assert (D1 : digit1 c = false) by (destruct (digit1 c) eqn:X; [rewrite (digit1_digit c X) in D; discriminate|reflexivity]).
  rewrite Z, D1. reflexivity.
Qed.

Lemma close_sound : forall a s k s', m_close a s = Some (k, s') -> k = a /\ s = "'" :: s'.
Proof.
  intros a [|c r] k s'; cbn; [discriminate|]. destruct (Ascii.eqb c "'") eqn:Q; [|discriminate]. apply Ascii.eqb_eq in Q. subst.
  intros H. injection H as <- <-. auto.
Qed.
Lemma decimal_complete : forall k s, decimal k -> m_decimal (k ++ "'" :: s) = Some (k, s).
Proof.
  intros k s [->|[a [b [-> [Fa Fb]]]]]; [reflexivity|]. unfold m_decimal.
  replace ((a ++ "." :: b) ++ "'" :: s) with (a ++ "." :: (b ++ "'" :: s)) by (rewrite <- app_assoc; reflexivity).
  rewrite (span_app digit a ("." :: b ++ "'" :: s) Fa eq_refl).
  rewrite (span_app digit b ("'" :: s) Fb eq_refl). cbn [Ascii.eqb]. change (Ascii.eqb "." ".") with true. cbv iota.
  assert (N : match a ++ "." :: b ++ "'" :: s with c :: r => if Ascii.eqb c "0" then m_close ["0"] r else None | [] => None end = None).
  { destruct a as [|c a]; [reflexivity|]. cbn. destruct (Ascii.eqb c "0"); [|reflexivity]. destruct a as [|d a]; [reflexivity|]. cbn.
    cbn in Fa. apply andb_true_iff in Fa. destruct Fa as [_ Fa]. apply andb_true_iff in Fa. destruct Fa as [Fd _].
    rewrite (digit_quote d Fd). reflexivity. }
  rewrite N. reflexivity.
Qed.
Lemma decimal_sound : forall s k s', m_decimal s = Some (k, s') -> decimal k /\ s = k ++ "'" :: s'.
Proof.
  intros s k s'. unfold m_decimal.
  destruct (match s with c :: r => if Ascii.eqb c "0" then m_close ["0"] r else None | [] => None end) as [x|] eqn:E0.
  - intros H. injection H as ->. destruct s as [|c r]; [discriminate|]. destruct (Ascii.eqb c "0") eqn:Z; [|discriminate].
    apply Ascii.eqb_eq in Z. subst. destruct (close_sound _ _ _ _ E0) as [-> ->]. split; [left; reflexivity|reflexivity].
  - destruct (span digit s) as [a r] eqn:Sa. destruct r as [|c r]; [discriminate|]. destruct (Ascii.eqb c ".") eqn:Q; [|discriminate].
    apply Ascii.eqb_eq in Q. subst c. destruct (span digit r) as [b r'] eqn:Sb. intros H. destruct (close_sound _ _ _ _ H) as [-> ->].
    destruct (span_sound _ _ _ _ Sa) as [-> [Fa _]]. destruct (span_sound _ _ _ _ Sb) as [-> [Fb _]].
    split; [right; exists a, b; auto|]. rewrite <- app_assoc. reflexivity.
Qed.
Lemma decimal_head : forall k, decimal k -> exists c r, k = c :: r /\ Ascii.eqb c "-" = false.
Proof.
  intros k [->|[a [b [-> [Fa _]]]]]; [exists "0", []; auto|]. destruct a as [|c a]; [exists ".", b; auto|]. exists c, (a ++ "." :: b).
  split; [reflexivity|]. cbn in Fa. apply andb_true_iff in Fa. apply digit_dash, Fa.
Qed.
Lemma quoted_read : forall k l s, spaced (quoted k :: l) s -> exists s', skipws s = "'" :: k ++ "'" :: s' /\ spaced l s'.
Proof.
  intros k l s Sp. destruct (spaced_read "'" (k ++ ["'"]) l s eq_refl Sp) as [s' [E Sp']]. exists s'. split; [|exact Sp'].
  rewrite E, <- app_assoc. reflexivity.
Qed.
Lemma float_complete : forall k l s, number k -> spaced (quoted k :: l) s -> exists s', m_float s = Some (k, s') /\ spaced l s'.
Proof.
  intros k l s K Sp. destruct (quoted_read k l s Sp) as [s' [E Sp']]. exists s'. split; [|exact Sp']. unfold m_float. rewrite E.
  destruct K as [K|[r [-> K]]].
  - destruct (decimal_head k K) as [c [r [-> N]]]. cbn [app]. change (Ascii.eqb "'" "'") with true. cbv iota. rewrite N.
    exact (decimal_complete (c :: r) s' K).
  - cbn [app]. change (Ascii.eqb "'" "'") with true. change (Ascii.eqb "-" "-") with true. cbv iota.
    rewrite (decimal_complete r s' K). reflexivity.
Qed.
Lemma float_sound : forall s k s', m_float s = Some (k, s') -> number k /\ skipws s = quoted k ++ s'.
Proof.
  intros s k s'. unfold m_float. destruct (skipws s) as [|q [|c r]] eqn:E; try discriminate.
  destruct (Ascii.eqb q "'") eqn:Q; [|discriminate]. apply Ascii.eqb_eq in Q. subst q. destruct (Ascii.eqb c "-") eqn:D.
  - apply Ascii.eqb_eq in D. subst c. destruct (m_decimal r) as [[a b]|] eqn:N; [|discriminate]. intros H. injection H as <- <-.
    destruct (decimal_sound _ _ _ N) as [K ->]. split; [right; exists a; auto|]. unfold quoted. cbn. rewrite <- app_assoc. reflexivity.
  - intros N. destruct (decimal_sound _ _ _ N) as [K ->]. split; [left; exact K|]. unfold quoted. cbn. rewrite <- app_assoc. reflexivity.
Qed.
Lemma str_complete : forall k l s, word k -> spaced (quoted k :: l) s -> exists s', m_str s = Some (k, s') /\ spaced l s'.
Proof.
  intros k l s [N F] Sp. destruct (quoted_read k l s Sp) as [s' [E Sp']]. exists s'. split; [|exact Sp']. unfold m_str. rewrite E.
  change (Ascii.eqb "'" "'") with true. cbv iota. rewrite (span_app strchar k ("'" :: s') F eq_refl).
  destruct k as [|c k]; [congruence|]. reflexivity.
Qed.
Lemma str_sound : forall s k s', m_str s = Some (k, s') -> word k /\ skipws s = quoted k ++ s'.
Proof.
  intros s k s'. unfold m_str. destruct (skipws s) as [|q r] eqn:E; [discriminate|]. destruct (Ascii.eqb q "'") eqn:Q; [|discriminate].
  apply Ascii.eqb_eq in Q. subst q. destruct (span strchar r) as [a b] eqn:Sp. destruct a as [|c a]; [discriminate|]. intros H.
  destruct (close_sound _ _ _ _ H) as [-> ->]. destruct (span_sound _ _ _ _ Sp) as [-> [F _]]. split; [split; [discriminate|exact F]|].
  unfold quoted. cbn. rewrite <- app_assoc. reflexivity.
Qed.
(** Neither numbers nor words contain a quote. *)
Definition no_quote (k : text) : Prop := Forall (fun c => Ascii.eqb c "'" = false) k.
Lemma word_no_quote : forall k, forallb strchar k = true -> no_quote k.
Proof. intros k F. apply Forall_forall. intros c I. apply strchar_quote. exact (proj1 (forallb_forall _ _) F c I). Qed.
Lemma decimal_strchar : forall k, decimal k -> forallb strchar k = true.
Proof.
  intros k [->|[a [b [-> [Fa Fb]]]]]; [reflexivity|]. rewrite forallb_app. cbn. apply andb_true_iff. split.
  - apply forallb_forall. intros c I. apply digit_strchar. exact (proj1 (forallb_forall _ _) Fa c I).
  - apply forallb_forall. intros c I. apply digit_strchar. exact (proj1 (forallb_forall _ _) Fb c I).
Qed.
Lemma number_no_quote : forall k, number k -> no_quote k.
Proof.
  intros k [K|[r [-> K]]]; [|constructor; [reflexivity|]]; apply word_no_quote, decimal_strchar, K.
Qed.
Lemma quote_unique : forall a b s t, no_quote a -> no_quote b -> a ++ "'" :: s = b ++ "'" :: t -> a = b /\ s = t.
Proof.
  induction a as [|c a IH]; intros [|d b] s t Na Nb E; cbn in E.
  - injection E as ->. auto.
  - injection E as <- _. inversion Nb as [|? ? X _]. discriminate.
  - injection E as -> _. inversion Na as [|? ? X _]. discriminate.
  - injection E as -> E. inversion Na as [|? ? _ Na']. inversion Nb as [|? ? _ Nb']. subst.
    destruct (IH b s t Na' Nb' E) as [-> ->]. auto.
Qed.

Lemma bool_complete : forall b l s, spaced (bool_text b :: l) s -> exists s', m_bool s = Some (b, s') /\ spaced l s'.
Proof.
  intros b l s Sp. destruct b.
  - destruct (spaced_read "T" ["r"; "u"; "e"] l s eq_refl Sp) as [s' [E Sp']]. exists s'. split; [|exact Sp']. unfold m_bool. rewrite E. reflexivity.
  - destruct (spaced_read "F" ["a"; "l"; "s"; "e"] l s eq_refl Sp) as [s' [E Sp']]. exists s'. split; [|exact Sp']. unfold m_bool. rewrite E. reflexivity.
Qed.
Lemma prefix_sound : forall k s r, prefix k s = Some r -> s = k ++ r.
Proof.
  induction k as [|c k IH]; cbn; intros s r H; [injection H as ->; reflexivity|]. destruct s as [|d s]; [discriminate|].
  destruct (Ascii.eqb c d) eqn:Q; [|discriminate]. apply Ascii.eqb_eq in Q. subst. f_equal. apply IH, H.
Qed.
Lemma bool_sound : forall s b s', m_bool s = Some (b, s') -> forall l, spaced l s' -> spaced (bool_text b :: l) s.
Proof.
  intros s b s'. unfold m_bool. destruct (prefix (bool_text true) (skipws s)) as [r|] eqn:P1.
  - intros H. injection H as <- <-. intros l Sp. exact (spaced_write _ l s r (prefix_sound _ _ _ P1) Sp).
  - destruct (prefix (bool_text false) (skipws s)) as [r|] eqn:P2; [|discriminate]. intros H. injection H as <- <-. intros l Sp.
    exact (spaced_write _ l s r (prefix_sound _ _ _ P2) Sp).
Qed.

(** Values. *)
Lemma quote_start : forall s r, skipws s = "'" :: r -> m_int s = None /\ m_bool s = None.
Proof.
  intros s r E. split; [exact (int_none "'" r s E eq_refl eq_refl)|]. unfold m_bool. rewrite E. reflexivity.
Qed.
Lemma lower_start : forall s c r, skipws s = c :: r -> alpha c = true -> m_int s = None /\ m_float s = None /\ m_str s = None.
Proof.
  intros s c r E A. split; [exact (int_none c r s E (alpha_digit c A) (alpha_dash c A))|]. unfold m_float, m_str. rewrite E.
  rewrite (alpha_quote c A). split; [|reflexivity]. destruct r; reflexivity.
Qed.
Lemma bool_start : forall b l s, spaced (bool_text b :: l) s -> m_int s = None.
Proof.
  intros b l s Sp. destruct b.
  - destruct (spaced_read "T" ["r"; "u"; "e"] l s eq_refl Sp) as [s' [E _]]. exact (int_none _ _ s E eq_refl eq_refl).
  - destruct (spaced_read "F" ["a"; "l"; "s"; "e"] l s eq_refl Sp) as [s' [E _]]. exact (int_none _ _ s E eq_refl eq_refl).
Qed.
Definition delimiter (d : ascii) : Prop := d = "," \/ d = ")".
Lemma delimiter_facts : forall d, delimiter d -> digit d = false /\ white d = false /\ alpha d = false /\ idchar d = false.
Proof. intros d [-> | ->]; auto. Qed.

Lemma pair_key : forall n l s, keyword n -> spaced (n :: ["="] :: l) s ->
  exists r s', m_int s = None /\ m_float s = None /\ m_str s = None /\ m_param s = Some (n, r) /\ m_char "=" r = Some s' /\ spaced l s'.
Proof.
  intros n l s K Sp. pose proof K as [c [r [En [A F]]]]. subst n.
  destruct (spaced_read c r _ s (alpha_white c (lower_alpha c A)) Sp) as [s1 [E _]].
  destruct (lower_start s c (r ++ s1) E (lower_alpha c A)) as [I [Fl St]].
  destruct (param_complete _ _ _ K Sp) as [s2 [P Sp2]]. destruct (char_complete "=" l s2 eq_refl Sp2) as [s3 [C Sp3]].
  exists s2, s3. auto 6.
Qed.

Lemma value_complete : forall v d l s, value_ok v -> delimiter d -> spaced (value_tokens v ++ [d] :: l) s ->
  exists s', m_value s = Some (v, s') /\ spaced ([d] :: l) s'.
Proof.
  intros v d l s V D Sp. destruct (delimiter_facts d D) as [Dd [Dw [Da Di]]]. destruct v as [k|k|n k|n b|n k]; cbn [value_tokens app value_ok] in *.
  - destruct (int_complete k d l s V Dd Sp) as [s' [E Sp']]. exists s'. split; [|exact Sp']. unfold m_value. rewrite E. reflexivity.
  - destruct (quoted_read k _ s Sp) as [s' [E Sp']]. destruct (quote_start s _ E) as [I _]. unfold m_value. rewrite I.
    destruct (m_float s) as [[k2 s2]|] eqn:Fl.
    + destruct (float_sound _ _ _ Fl) as [K2 E2]. rewrite E in E2. unfold quoted in E2. cbn in E2. rewrite <- app_assoc in E2. cbn in E2.
      injection E2 as E2. destruct (quote_unique k k2 s' s2) as [-> ->]; [destruct V as [V|V]; [exact (number_no_quote k V)|exact (word_no_quote k (proj2 V))]|exact (number_no_quote k2 K2)|exact E2|].
      exists s2. auto.
    + destruct V as [V|V].
      * destruct (float_complete k _ s V Sp) as [s3 [E3 _]]. rewrite E3 in Fl. discriminate.
      * destruct (str_complete k _ s V Sp) as [s3 [E3 Sp3]]. rewrite E3. exists s3. auto.
  - destruct V as [K V]. destruct (pair_key n _ s K Sp) as [r [s1 [I [Fl [St [P [C Sp1]]]]]]].
    unfold m_value, m_pair. rewrite I, Fl, St, P, C. destruct (int_complete k d l s1 V Dd Sp1) as [s' [E Sp']]. rewrite E. exists s'. auto.
  - destruct (pair_key n _ s V Sp) as [r [s1 [I [Fl [St [P [C Sp1]]]]]]].
    unfold m_value, m_pair. rewrite I, Fl, St, P, C, (bool_start b _ s1 Sp1).
    destruct (bool_complete b _ s1 Sp1) as [s' [E Sp']]. rewrite E. exists s'. auto.
  - destruct V as [K V]. destruct (pair_key n _ s K Sp) as [r [s1 [I [Fl [St [P [C Sp1]]]]]]].
    unfold m_value, m_pair. rewrite I, Fl, St, P, C. destruct (quoted_read k _ s1 Sp1) as [s2 [E2 _]].
    destruct (quote_start s1 _ E2) as [I1 B1]. rewrite I1, B1. destruct (str_complete k _ s1 V Sp1) as [s' [E Sp']]. rewrite E. exists s'. auto.
Qed.

Lemma value_sound : forall s v s', m_value s = Some (v, s') -> value_ok v /\ forall l, spaced l s' -> spaced (value_tokens v ++ l) s.
Proof.
  intros s v s'. unfold m_value. destruct (m_int s) as [[k r]|] eqn:I.
  { intros H. injection H as <- <-. exact (int_sound s k r I). }
  destruct (m_float s) as [[k r]|] eqn:Fl.
  { intros H. injection H as <- <-. destruct (float_sound s k r Fl) as [K E]. split; [left; exact K|]. intros l Sp. exact (spaced_write _ l s r E Sp). }
  destruct (m_str s) as [[k r]|] eqn:St.
  { intros H. injection H as <- <-. destruct (str_sound s k r St) as [K E]. split; [right; exact K|]. intros l Sp. exact (spaced_write _ l s r E Sp). }
  unfold m_pair. destruct (m_param s) as [[n r]|] eqn:P; [|discriminate]. destruct (param_sound s n r P) as [K W].
  destruct (m_char "=" r) as [r1|] eqn:C; [|discriminate]. pose proof (char_sound "=" r r1 C) as WC.
  destruct (m_int r1) as [[k r2]|] eqn:I1.
  { intros H. injection H as <- <-. destruct (int_sound r1 k r2 I1) as [V WI]. split; [split; assumption|]. intros l Sp. cbn. auto. }
  destruct (m_bool r1) as [[b r2]|] eqn:B1.
  { intros H. injection H as <- <-. split; [exact K|]. intros l Sp. cbn. apply W, WC, (bool_sound r1 b r2 B1), Sp. }
  destruct (m_str r1) as [[k r2]|] eqn:S1; [|discriminate]. intros H. injection H as <- <-.
  destruct (str_sound r1 k r2 S1) as [V E]. split; [split; assumption|]. intros l Sp. cbn. apply W, WC, (spaced_write _ l r1 r2 E Sp).
Qed.

(** A name that is not a whole keyword argument is not a value. *)
Lemma name_not_value : forall c r s, skipws s = c :: r -> alpha c = true ->
  (forall a b, r = a ++ b -> forallb alpha a = true -> stops alpha b -> m_char "=" b = None) -> m_value s = None.
Proof.
  intros c r s E A N. destruct (lower_start s c r E A) as [I [Fl St]]. unfold m_value. rewrite I, Fl, St. unfold m_pair, m_param. rewrite E.
  destruct (lower c); [|reflexivity]. destruct (span alpha r) as [a b] eqn:Sp. destruct (span_sound _ _ _ _ Sp) as [Er [Fa Sb]].
  rewrite (N a b Er Fa Sb). reflexivity.
Qed.
Lemma app_split : forall (p q : ascii -> bool) n s a b, forallb q n = true -> n ++ s = a ++ b -> forallb p a = true ->
  (stops p s) -> stops p b -> (exists n2, n = a ++ n2 /\ b = n2 ++ s /\ forallb q n2 = true).
Proof.
  intros p q n. induction n as [|c n IH]; cbn; intros s a b Fq E Fp Ss Sb.
  - destruct a as [|d a]; cbn in E; [exists []; auto|]. subst s. cbn in Ss, Fp. rewrite Ss in Fp. discriminate.
  - destruct a as [|d a]; cbn in E.
    + exists (c :: n). subst b. auto.
    + injection E as <- E. apply andb_true_iff in Fq. destruct Fq as [Fc Fq]. cbn in Fp. apply andb_true_iff in Fp. destruct Fp as [_ Fp].
      destruct (IH s a b Fq E Fp Ss Sb) as [n2 [-> [-> F2]]]. exists n2. auto.
Qed.
Lemma call_not_value : forall n l s, ident n -> spaced (n :: ["("] :: l) s -> m_value s = None.
Proof.
  intros n l s [c [r [-> [A F]]]] Sp. destruct (spaced_read c r _ s (alpha_white c A) Sp) as [s1 [E Sp1]].
  apply (name_not_value c (r ++ s1) s E A). intros a b Er Fa Sb.
  destruct (app_split alpha idchar r s1 a b F Er Fa (spaced_stops alpha "(" [] l s1 white_alpha eq_refl Sp1) Sb) as [n2 [_ [-> F2]]].
  destruct n2 as [|d n2]; [exact (char_none "=" "(" [] l s1 eq_refl eq_refl Sp1)|]. cbn in F2. apply andb_true_iff in F2. destruct F2 as [F2 _].
  unfold m_char. cbn. rewrite (idchar_white d F2), (idchar_equal d F2). reflexivity.
Qed.

(** Calls. *)
Section ind.
  Variable P : call -> Prop.
  Hypothesis HV : forall v, P (Val v).
  Hypothesis HC : forall n args, Forall P args -> P (Call n args).
  Fixpoint call_ind' (t : call) : P t :=
    match t with
    | Val v => HV v
    | Call n args => HC n args ((fix go l : Forall P l := match l with [] => Forall_nil _ | x :: r => Forall_cons x (call_ind' x) (go r) end) args)
    end.
End ind.

Definition more_tokens (args : list call) : list text := flat_map (fun a => [","] :: tokens a) args.
Lemma separated_more : forall args a, separated (map tokens (a :: args)) = tokens a ++ more_tokens args.
Proof.
  induction args as [|b args IH]; intros a; [cbn; rewrite app_nil_r; reflexivity|].
  change (separated (map tokens (a :: b :: args))) with (tokens a ++ [","] :: separated (map tokens (b :: args))). rewrite IH. reflexivity.
Qed.
Lemma tokens_call : forall n a args, tokens (Call n (a :: args)) = n :: ["("] :: tokens a ++ more_tokens args ++ [[")"]].
Proof. intros n a args. cbn [tokens]. rewrite separated_more, <- app_assoc. reflexivity. Qed.

Definition expr_complete (t : call) : Prop := call_ok t -> is_call t -> forall f l s, 2 * length (tokens t) <= f -> spaced (tokens t ++ l) s ->
  exists s', m_expr f s = Some (t, s') /\ spaced l s'.
Definition item_complete (t : call) : Prop := call_ok t -> forall f d l s, delimiter d -> 2 * length (tokens t) + 1 <= f -> spaced (tokens t ++ [d] :: l) s ->
  exists s', m_item f s = Some (t, s') /\ spaced ([d] :: l) s'.
Lemma item_of_expr : forall t, expr_complete t -> item_complete t.
Proof.
  intros t H K f d l s D F Sp. destruct f as [|f]; [lia|]. cbn [m_item]. inversion K as [v V Ev|n a args N Ka Kargs Et]; subst t.
  - destruct (value_complete v d l s V D Sp) as [s' [E Sp']]. rewrite E. exists s'. auto.
  - assert (M : m_value s = None). { rewrite tokens_call in Sp. exact (call_not_value n _ s N Sp). }
    rewrite M. apply (H K I f ([d] :: l) s); [unfold text in *; lia|exact Sp].
Qed.
Lemma more_complete : forall args, Forall item_complete args -> Forall call_ok args -> forall f l s, 2 * length (more_tokens args) + 1 <= f ->
  spaced (more_tokens args ++ [")"] :: l) s -> exists s', m_more f s = (args, s') /\ spaced ([")"] :: l) s'.
Proof.
  induction args as [|a args IH]; intros FI FK f l s F Sp; (destruct f as [|f]; [lia|]); cbn [m_more].
  - cbn in Sp. rewrite (char_none "," ")" [] l s eq_refl eq_refl Sp). exists s. auto.
  - inversion FI as [|? ? Ia Ir]. inversion FK as [|? ? Ka Kr]. subst. cbn [more_tokens flat_map] in Sp, F. fold (more_tokens args) in Sp, F.
    cbn [app] in Sp. destruct (char_complete "," _ s eq_refl Sp) as [s1 [E1 Sp1]]. rewrite E1. rewrite <- app_assoc in Sp1.
    cbn [length app] in F. rewrite app_length in F.
    assert (X : exists s2, m_item f s1 = Some (a, s2) /\ spaced (more_tokens args ++ [")"] :: l) s2).
    { destruct args as [|b args].
      - cbn [more_tokens flat_map app] in *. apply (Ia Ka f ")" l s1); [right; reflexivity|unfold text in *; lia|exact Sp1].
      - cbn [more_tokens flat_map app] in *. apply (Ia Ka f "," _ s1); [left; reflexivity|unfold text in *; lia|exact Sp1]. }
    destruct X as [s2 [E2 Sp2]]. rewrite E2. destruct (IH Ir Kr f l s2) as [s3 [E3 Sp3]]; [unfold text in *; lia|exact Sp2|]. rewrite E3. exists s3. auto.
Qed.
Lemma parser_complete : forall t, expr_complete t.
Proof.
  apply call_ind'; [intros v _ []|]. intros n args H K _ f l s F Sp. inversion K as [|n' a r N Ka Kr]; subst.
  inversion H as [|? ? Ha Hr]; subst. rewrite tokens_call in Sp, F. cbn [length] in F. rewrite !app_length in F. cbn [length] in F.
  destruct f as [|f]; [lia|]. cbn [m_expr]. cbn [app] in Sp.
  destruct (id_complete n _ s N Sp) as [s1 [E1 Sp1]]. rewrite E1. destruct (char_complete "(" _ s1 eq_refl Sp1) as [s2 [E2 Sp2]]. rewrite E2.
  rewrite <- app_assoc in Sp2. rewrite <- app_assoc in Sp2. cbn [app] in Sp2.
  assert (X : exists s3, m_item f s2 = Some (a, s3) /\ spaced (more_tokens r ++ [")"] :: l) s3).
  { destruct r as [|b r].
    - cbn [more_tokens flat_map app] in *. apply (item_of_expr a Ha Ka f ")" l s2); [right; reflexivity|unfold text in *; lia|exact Sp2].
    - cbn [more_tokens flat_map app] in *. apply (item_of_expr a Ha Ka f "," _ s2); [left; reflexivity|unfold text in *; lia|exact Sp2]. }
  destruct X as [s3 [E3 Sp3]]. rewrite E3.
  assert (Hr' : Forall item_complete r) by (eapply Forall_impl; [exact item_of_expr|exact Hr]).
  destruct (more_complete r Hr' Kr f l s3) as [s4 [E4 Sp4]]; [unfold text in *; lia|exact Sp3|]. rewrite E4.
  destruct (char_complete ")" l s4 eq_refl Sp4) as [s5 [E5 Sp5]]. rewrite E5. exists s5. auto.
Qed.

Lemma parser_sound : forall f,
  (forall s t s', m_expr f s = Some (t, s') -> is_call t /\ call_ok t /\ forall l, spaced l s' -> spaced (tokens t ++ l) s) /\
  (forall s t s', m_item f s = Some (t, s') -> call_ok t /\ forall l, spaced l s' -> spaced (tokens t ++ l) s) /\
  (forall s args s', m_more f s = (args, s') -> Forall call_ok args /\ forall l, spaced l s' -> spaced (more_tokens args ++ l) s).
Proof.
  induction f as [|f [IHe [IHi IHm]]]; (split; [|split]); intros s t s'.
  - discriminate.
  - discriminate.
  - cbn. intros H. injection H as <- <-. split; [constructor|auto].
  - cbn [m_expr]. destruct (m_id s) as [[n r]|] eqn:N; [|discriminate]. destruct (id_sound s n r N) as [Kn Wn].
    destruct (m_char "(" r) as [r1|] eqn:C1; [|discriminate]. pose proof (char_sound _ _ _ C1) as W1.
    destruct (m_item f r1) as [[a r2]|] eqn:It; [|discriminate]. destruct (IHi _ _ _ It) as [Ka Wa].
    destruct (m_more f r2) as [args r3] eqn:Mo. destruct (IHm _ _ _ Mo) as [Kargs Wargs].
    destruct (m_char ")" r3) as [r4|] eqn:C2; [|discriminate]. pose proof (char_sound _ _ _ C2) as W2.
    intros H. injection H as <- <-. split; [exact I|]. split; [constructor; assumption|]. intros l Sp. rewrite tokens_call. cbn [app].
    rewrite <- app_assoc. rewrite <- app_assoc. cbn [app]. apply Wn, W1, Wa, Wargs, W2, Sp.
  - cbn [m_item]. destruct (m_value s) as [[v r]|] eqn:V.
    + intros H. injection H as <- <-. destruct (value_sound s v r V) as [Kv Wv]. split; [constructor; exact Kv|exact Wv].
    + intros H. destruct (IHe _ _ _ H) as [_ X]. exact X.
  - cbn [m_more]. destruct (m_char "," s) as [r|] eqn:C; [|intros H; injection H as <- <-; split; [constructor|auto]]. pose proof (char_sound _ _ _ C) as W.
    destruct (m_item f r) as [[a r1]|] eqn:It; [|intros H; injection H as <- <-; split; [constructor|auto]]. destruct (IHi _ _ _ It) as [Ka Wa].
    destruct (m_more f r1) as [args r2] eqn:Mo. destruct (IHm _ _ _ Mo) as [Kargs Wargs]. intros H. injection H as <- <-.
    split; [constructor; assumption|]. intros l Sp. cbn [more_tokens flat_map]. fold (more_tokens args). cbn [app]. rewrite <- app_assoc. apply W, Wa, Wargs, Sp.
Qed.

(** The supplied recursion bound is enough for every text. *)
Lemma spaced_length : forall l s, Forall (fun k => k <> []) l -> spaced l s -> length l <= length s.
Proof.
  intros l s F Sp. induction Sp as [w Fw|w k l s Fw Sp IH]; [cbn; lia|]. inversion F as [|? ? Nk Fl]. subst. specialize (IH Fl).
  rewrite !app_length. cbn. destruct k as [|c k]; [congruence|]. cbn. lia.
Qed.
Lemma ident_nonempty : forall n, ident n -> n <> []. Proof. intros n [c [r [-> _]]]. discriminate. Qed.
Lemma keyword_nonempty : forall n, keyword n -> n <> []. Proof. intros n [c [r [-> _]]]. discriminate. Qed.
Lemma integer_nonempty : forall n, integer n -> n <> [].
Proof. intros n [N|[r [-> _]]]; [|discriminate]. destruct (natural_head n N) as [c [r [-> _]]]. discriminate. Qed.
Lemma value_nonempty : forall v, value_ok v -> Forall (fun k : text => k <> []) (value_tokens v).
Proof.
  intros [k|k|n k|n b|n k]; cbn; intros V.
  - constructor; [exact (integer_nonempty k V)|constructor].
  - constructor; [discriminate|constructor].
  - destruct V as [K V]. constructor; [exact (keyword_nonempty n K)|]. constructor; [discriminate|]. constructor; [exact (integer_nonempty k V)|constructor].
  - constructor; [exact (keyword_nonempty n V)|]. constructor; [discriminate|]. constructor; [destruct b; discriminate|constructor].
  - destruct V as [K V]. constructor; [exact (keyword_nonempty n K)|]. constructor; [discriminate|]. constructor; [discriminate|constructor].
Qed.
Lemma tokens_nonempty : forall t, call_ok t -> Forall (fun k : text => k <> []) (tokens t).
Proof.
  apply (call_ind' (fun t => call_ok t -> Forall (fun k : text => k <> []) (tokens t))).
  - intros v K. inversion K as [? V|]. subst. exact (value_nonempty v V).
  - intros n args H K. inversion K as [|n' a r N Ka Kr]; subst. inversion H as [|? ? Ha Hr]; subst. rewrite tokens_call.
    constructor; [exact (ident_nonempty n N)|]. constructor; [discriminate|]. apply Forall_app. split; [exact (Ha Ka)|]. apply Forall_app. split.
    + clear - Hr Kr. induction r as [|b r IH]; [constructor|]. inversion Hr; inversion Kr; subst. cbn. constructor; [discriminate|].
      apply Forall_app. split; auto.
    + constructor; [discriminate|constructor].
Qed.
