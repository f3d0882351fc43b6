(** Decimal representations are distinct, non-empty and made of digits. *)
From Coq Require Import String Ascii List Arith Bool Lia.
From Verif Require Import M_Checkpoint P_Checkpoint M_Names.
Import ListNotations.
Open Scope string_scope.

Lemma of_chars_inj l l' : of_chars l = of_chars l' -> l = l'.
Proof.
  revert l'. induction l as [|c l IH]; intros [|c' l'] H; simpl in H; try discriminate; [reflexivity|]. injection H as -> H. f_equal. apply IH, H.
Qed.
Lemma of_chars_app l l' : of_chars (l ++ l')%list = of_chars l ++ of_chars l'.
Proof. induction l as [|c l IH]; simpl; [reflexivity|rewrite IH; reflexivity]. Qed.
Lemma dec_inj a b : dec a = dec b -> a = b.
Proof.
  intros H. apply of_chars_inj in H. destruct (digits_spec a a (le_n a)) as (P & _ & _). destruct (digits_spec b b (le_n b)) as (Q & _ & _). rewrite <- P, <- Q, H. reflexivity.
Qed.
Lemma dec_head a : exists c s, dec a = String c s /\ is_digit c = true.
Proof.
  destruct (digits_spec a a (le_n a)) as (_ & F & N). unfold dec. destruct (digits a a) as [|c l]; [congruence|]. inversion F; subst. exists c, (of_chars l). split; [reflexivity|assumption].
Qed.
Lemma append_inj p a b : p ++ a = p ++ b -> a = b.
Proof. induction p as [|c p IH]; simpl; intros H; [exact H|]. injection H as H. apply IH, H. Qed.
Lemma append_assoc a b c : (a ++ b) ++ c = a ++ (b ++ c).
Proof. induction a as [|x a IH]; simpl; [reflexivity|rewrite IH; reflexivity]. Qed.
Lemma digits_small fuel n : n < 10 -> digits fuel n = [ascii_of_nat (48 + n)].
Proof. intros H. destruct fuel as [|f]; cbn [digits]; rewrite Nat.mod_small by lia; [reflexivity|]. destruct (Nat.ltb_spec n 10); [reflexivity|lia]. Qed.
Lemma digits_large fuel : forall n, n <= fuel -> 10 <= n -> exists c r, digits fuel n = c :: r /\ c <> "0"%char /\ r <> [].
Proof.
  induction fuel as [|f IH]; intros n H L; [lia|]. cbn [digits]. destruct (Nat.ltb_spec n 10) as [L1|_]; [lia|].
  assert (Hd : n / 10 < n) by (apply Nat.div_lt; lia). assert (H1 : 1 <= n / 10) by (apply (Nat.div_le_lower_bound n 10 1); lia). destruct (le_lt_dec 10 (n / 10)) as [G|G].
  - destruct (IH (n / 10) ltac:(lia) G) as (c & r & E & Hc & Hr). rewrite E. exists c, (r ++ [ascii_of_nat (48 + n mod 10)])%list. split; [reflexivity|]. split; [exact Hc|]. destruct r; discriminate.
  - rewrite digits_small by exact G. eexists. eexists. split; [reflexivity|]. split; [|discriminate].
    destruct (n / 10) as [|[|[|[|[|[|[|[|[|[|]]]]]]]]]]; try lia; intros E; discriminate E.
Qed.
Lemma dec_no_zero n c s : dec n = String "0" (String c s) -> False.
Proof.
  unfold dec. destruct (le_lt_dec 10 n) as [G|G].
  - destruct (digits_large n n (le_n n) G) as (d & r & E & Hd & _). rewrite E. simpl. intros H. injection H as H _. contradiction.
  - rewrite digits_small by exact G. simpl. discriminate.
Qed.
Lemma dec_small n : n < 10 -> dec n = String (ascii_of_nat (48 + n)) "".
Proof. intros H. unfold dec. rewrite digits_small by exact H. reflexivity. Qed.
Lemma ascii_small a b : a < 10 -> b < 10 -> ascii_of_nat (48 + a) = ascii_of_nat (48 + b) -> a = b.
Proof. intros Ha Hb H. apply (f_equal nat_of_ascii) in H. rewrite !nat_ascii_embedding in H by lia. lia. Qed.
Lemma dec_ten : dec 10 = String "1" (String "0" "").
Proof. reflexivity. Qed.
Lemma dec_two_digits : forall l l' i i', l <= 10 -> l' <= 10 -> dec l ++ dec i = dec l' ++ dec i' -> l = l' /\ i = i'.
Proof.
  assert (K : forall l i i', l < 10 -> dec l ++ dec i = dec 10 ++ dec i' -> False).
  { intros l i i' Hl H. rewrite dec_ten, (dec_small l Hl) in H. cbn [append] in H. remember (ascii_of_nat (48 + l)) as cl eqn:El. injection H as H1 H2. subst cl. destruct (dec_head i') as (c & s & E & _). rewrite E in H2. exact (dec_no_zero i c s H2). }
  intros l l' i i' Hl Hl' H. destruct (Nat.eq_dec l 10) as [->|N], (Nat.eq_dec l' 10) as [->|N'].
  - split; [reflexivity|]. apply append_inj in H. apply dec_inj, H.
  - exfalso. apply (K l' i' i ltac:(lia)). symmetry. exact H.
  - exfalso. apply (K l i i' ltac:(lia) H).
  - rewrite (dec_small l ltac:(lia)), (dec_small l' ltac:(lia)) in H. cbn [append] in H. remember (ascii_of_nat (48 + l)) as cl eqn:El. injection H as H1 H2. subst cl. apply ascii_small in H1; [|lia|lia]. split; [exact H1|apply dec_inj, H2].
Qed.
Lemma dec_one_digit : forall l l' i i', i < 10 -> i' < 10 -> dec l ++ dec i = dec l' ++ dec i' -> l = l' /\ i = i'.
Proof.
  intros l l' i i' Hi Hi' H. unfold dec in H. rewrite <- !of_chars_app in H. apply of_chars_inj in H. rewrite (digits_small i i), (digits_small i' i') in H by assumption.
  apply app_inj_tail in H as [H1 H2]. apply ascii_small in H2; [|assumption|assumption]. split; [|exact H2]. apply dec_inj. unfold dec. rewrite H1. reflexivity.
Qed.
