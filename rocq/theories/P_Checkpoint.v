(** C33: resuming from checkpoints. *)
From Coq Require Import List Arith Bool Lia Ascii String Permutation.
From Verif Require Import M_Checkpoint.
Import ListNotations.
Open Scope list_scope.

(** ** Specification vocabulary *)
Definition suffix_of (p l : str) : Prop := exists a, l = a ++ p.
Definition substring (p l : str) : Prop := exists a b, l = a ++ p ++ b.
(** Device names such as cpu, cuda, None: letters, not empty. *)
Definition letter (c : ascii) : Prop := is_digit c = false /\ c <> "_"%char.
Definition device_ok (d : str) : Prop := d <> [] /\ Forall letter d.
(** Labels such as "best": the last character is not a digit. *)
Definition iter_ok (i : iter) : Prop := match i with Num _ => True | Label s => exists a c, s = a ++ [c] /\ is_digit c = false end.
(** A checkpoint file as written by write_checkpoint. *)
Record ckpt := { c_kind : str; c_cls : str; c_iter : iter; c_dev : str }.
Definition file_of (c : ckpt) : str := ckpt_name (c_kind c) (c_cls c) (c_iter c) (c_dev c).
Definition ckpt_ok (c : ckpt) : Prop := iter_ok (c_iter c) /\ device_ok (c_dev c).

(** ** Strings *)
Lemma str_eqb_iff a b : str_eqb a b = true <-> a = b.
Proof.
  revert b. induction a as [|x a IH]; intros [|y b]; simpl; split; try congruence; intros H.
  - apply andb_true_iff in H as [H1 H2]. apply Ascii.eqb_eq in H1. apply IH in H2. congruence.
  - injection H as <- <-. rewrite Ascii.eqb_refl. apply IH. reflexivity.
Qed.
Lemma strip_iff p l r : strip_prefix p l = Some r <-> l = p ++ r.
Proof.
  revert l. induction p as [|x p IH]; intros l; simpl; [split; congruence|]. destruct l as [|y l]; [split; discriminate|].
  destruct (Ascii.eqb_spec x y) as [->|N].
  - rewrite IH. split; [intros ->; reflexivity|]. intros H. injection H as ->. reflexivity.
  - split; [discriminate|]. intros H. injection H as -> _. congruence.
Qed.
Lemma starts_iff p l : starts_with p l = true <-> exists r, l = p ++ r.
Proof.
  unfold starts_with. destruct (strip_prefix p l) as [r|] eqn:E.
  - apply strip_iff in E. split; [intros _; exists r; exact E|reflexivity].
  - split; [discriminate|]. intros (r & H). apply strip_iff in H. congruence.
Qed.
Lemma contains_iff p l : contains p l = true <-> substring p l.
Proof.
  induction l as [|x l IH]; simpl; rewrite orb_true_iff, starts_iff.
  - split.
    + intros [(r & H)|H]; [|discriminate]. exists [], r. exact H.
    + intros (a & b & H). left. symmetry in H. apply app_eq_nil in H as [_ H]. exists b. congruence.
  - rewrite IH. split.
    + intros [(r & H)|(a & b & ->)]; [exists [], r; exact H|exists (x :: a), b; reflexivity].
    + intros ([|y a] & b & H); [left; exists b; exact H|]. right. injection H as _ ->. exists a, b. reflexivity.
Qed.
Lemma ends_iff p l : ends_with p l = true <-> suffix_of p l.
Proof.
  unfold ends_with, suffix_of. rewrite starts_iff. split.
  - intros (r & H). exists (rev r). rewrite <- (rev_involutive l), H, rev_app_distr, rev_involutive. reflexivity.
  - intros (a & ->). exists (rev a). apply rev_app_distr.
Qed.

(** ** Numbers *)
Lemma digit_char d : d < 10 -> is_digit (ascii_of_nat (48 + d)) = true /\ digit_val (ascii_of_nat (48 + d)) = d.
Proof. intros H. unfold is_digit, digit_val. rewrite nat_ascii_embedding by lia. split; [|lia]. apply andb_true_iff. rewrite !Nat.leb_le. lia. Qed.
Lemma parse_snoc l c : parse_int (l ++ [c]) = 10 * parse_int l + digit_val c.
Proof. unfold parse_int. rewrite fold_left_app. reflexivity. Qed.
Lemma digits_spec fuel : forall n, n <= fuel -> parse_int (digits fuel n) = n /\ Forall (fun c => is_digit c = true) (digits fuel n) /\ digits fuel n <> [].
Proof.
  induction fuel as [|f IH]; intros n H; cbn [digits].
  - assert (n = 0) as -> by lia. repeat split; [constructor; [reflexivity|constructor]|discriminate].
  - pose proof (digit_char (n mod 10) ltac:(apply Nat.mod_upper_bound; lia)) as [D1 D2]. destruct (Nat.ltb_spec n 10) as [L|L].
    + split; [|split; [constructor; [exact D1|constructor]|discriminate]]. pose proof (parse_snoc [] (ascii_of_nat (48 + n mod 10))) as Q. rewrite D2, Nat.mod_small in Q by exact L. rewrite app_nil_l in Q. rewrite Nat.mod_small by exact L. exact Q.
    + assert (Hd : n / 10 <= f) by (assert (n / 10 < n) by (apply Nat.div_lt; lia); lia). destruct (IH (n / 10) Hd) as (P & F & N).
      split; [|split; [apply Forall_app; split; [exact F|constructor; [exact D1|constructor]]|destruct (digits f (n / 10)); discriminate]].
      rewrite parse_snoc, P, D2. symmetry. apply Nat.div_mod. lia.
Qed.
Lemma parse_zeros k l : parse_int (repeat "0"%char k ++ l) = parse_int l.
Proof. induction k as [|k IH]; [reflexivity|]. unfold parse_int in *. simpl. exact IH. Qed.
Lemma format_spec n : parse_int (format03 n) = n /\ Forall (fun c => is_digit c = true) (format03 n) /\ format03 n <> [].
Proof.
  destruct (digits_spec n n (Nat.le_refl n)) as (P & F & N). unfold format03. rewrite parse_zeros. split; [exact P|]. split.
  - apply Forall_app. split; [|exact F]. apply Forall_forall. intros c H. apply repeat_spec in H as ->. reflexivity.
  - destruct (repeat _ _); [exact N|discriminate].
Qed.

(** ** The pattern on checkpoint names *)
Lemma span_digits ds c r : Forall (fun c => is_digit c = true) ds -> is_digit c = false -> span is_digit (ds ++ c :: r) = (ds, c :: r).
Proof. intros F H. induction F as [|d ds Hd F IH]; simpl; [rewrite H; reflexivity|]. rewrite Hd, IH. reflexivity. Qed.
Lemma name_rev kind cls i dev : exists pre, rev (ckpt_name kind cls i dev) = "t"%char :: "p"%char :: "."%char :: rev dev ++ rev (s_ "_device_") ++ rev (iter_string i) ++ "_"%char :: pre.
Proof.
  exists (rev (kind ++ s_ "_" ++ cls ++ s_ "_ckpt")). unfold ckpt_name. change (s_ "_ckpt_") with (s_ "_ckpt" ++ ["_"%char]). rewrite !rev_app_distr. simpl. rewrite <- !app_assoc. reflexivity.
Qed.
Lemma strip_letters a b p q r : Forall letter a -> Forall letter b -> strip_prefix (a ++ "_"%char :: p) (b ++ "_"%char :: q) = Some r -> a = b.
Proof.
  revert b. induction a as [|x a IH]; intros b Fa Fb H.
  - destruct b as [|y b]; [reflexivity|]. exfalso. cbn [app strip_prefix] in H. destruct (Ascii.eqb_spec "_" y) as [E|E]; [|discriminate]. inversion Fb as [|? ? [_ N] _]; subst. congruence.
  - inversion Fa as [|? ? La Fa']; subst. destruct b as [|y b].
    + exfalso. cbn [app strip_prefix] in H. destruct (Ascii.eqb_spec x "_") as [E|E]; [|discriminate]. destruct La. congruence.
    + inversion Fb; subst. cbn [app strip_prefix] in H. destruct (Ascii.eqb_spec x y) as [->|E]; [|discriminate]. f_equal. eapply IH; eauto.
Qed.
Lemma forall_rev {A} (P : A -> Prop) l : Forall P l -> Forall P (rev l).
Proof. rewrite !Forall_forall. intros H x Hx. apply H. apply in_rev, Hx. Qed.

Lemma legacy_none kind cls i dev : device_ok dev -> regex_group [] (ckpt_name kind cls i dev) = None.
Proof.
  intros [N F]. unfold regex_group. destruct (name_rev kind cls i dev) as (pre & ->). simpl. apply forall_rev in F. destruct (rev dev) as [|x l] eqn:E.
  - exfalso. apply N. rewrite <- (rev_involutive dev), E. reflexivity.
  - inversion F as [|? ? [D _] _]; subst. simpl. rewrite D. reflexivity.
Qed.
Lemma device_group kind cls i dev device : device_ok dev -> device_ok device -> iter_ok i ->
  regex_group (s_ "_device_" ++ device) (ckpt_name kind cls i dev) = match i with Num n => if str_eqb dev device then Some (format03 n) else None | Label _ => None end.
Proof.
  intros [_ F1] [_ F2] Hi. unfold regex_group. destruct (name_rev kind cls i dev) as (pre & ->). rewrite rev_app_distr. change (Ascii.eqb "t" "t" && Ascii.eqb "p" "p") with true. cbv iota.
  destruct (str_eqb dev device) eqn:E.
  - apply str_eqb_iff in E as ->.
    assert (S : strip_prefix (rev device ++ rev (s_ "_device_")) (rev device ++ rev (s_ "_device_") ++ rev (iter_string i) ++ "_"%char :: pre) = Some (rev (iter_string i) ++ "_"%char :: pre)) by (apply strip_iff; rewrite <- app_assoc; reflexivity).
    rewrite S. destruct i as [n|s]; cbn [iter_string iter_ok] in *.
    + destruct (format_spec n) as (_ & D & N). rewrite span_digits; [|apply forall_rev, D|reflexivity]. destruct (rev (format03 n)) as [|c ds] eqn:Q.
      * exfalso. apply N. rewrite <- (rev_involutive (format03 n)), Q. reflexivity.
      * rewrite <- Q. simpl. rewrite rev_involutive. reflexivity.
    + destruct Hi as (a & c & -> & D). rewrite rev_app_distr. simpl. rewrite D. reflexivity.
  - assert (S : strip_prefix (rev device ++ rev (s_ "_device_")) (rev dev ++ rev (s_ "_device_") ++ rev (iter_string i) ++ "_"%char :: pre) = None).
    { destruct (strip_prefix _ _) as [r|] eqn:Q; [|reflexivity]. exfalso. change (rev (s_ "_device_")) with ("_"%char :: rev (s_ "_device")) in Q. rewrite <- app_comm_cons in Q.
      apply strip_letters in Q; [|apply forall_rev, F2|apply forall_rev, F1]. assert (dev = device) by (rewrite <- (rev_involutive dev), <- Q; apply rev_involutive). subst. rewrite (proj2 (str_eqb_iff _ _) eq_refl) in E. discriminate. }
    rewrite S. destruct i; reflexivity.
Qed.
Lemma index_spec kind cls i dev device : device_ok dev -> device_ok device -> iter_ok i ->
  match_index device (ckpt_name kind cls i dev) = match i with Num n => if str_eqb dev device then Some n else None | Label _ => None end.
Proof.
  intros H1 H2 H3. unfold match_index. rewrite legacy_none, device_group by assumption. destruct i as [n|s]; [|reflexivity]. destruct (str_eqb dev device); [|reflexivity].
  rewrite (proj1 (format_spec n)). reflexivity.
Qed.

(** ** The loop *)
Lemma loop_spec device files : forall best,
  let r := latest_loop device files best in
  (r = best \/ exists i, fst r = Some i /\ In (snd r) files /\ match_index device (snd r) = Some i) /\
  (forall m, fst best = Some m -> exists i, fst r = Some i /\ m <= i) /\
  (forall g j, In g files -> match_index device g = Some j -> exists i, fst r = Some i /\ j <= i).
Proof.
  induction files as [|f files IH]; intros best; cbn [latest_loop].
  - split; [left; reflexivity|]. split; [intros m ->; exists m; auto|intros g j []].
  - set (b' := match match_index device f with Some i => _ | None => best end). destruct (IH b') as (I1 & I2 & I3).
    assert (B : (b' = best \/ exists i, b' = (Some i, f) /\ match_index device f = Some i) /\ (forall m, fst best = Some m -> exists i, fst b' = Some i /\ m <= i) /\
                (forall j, match_index device f = Some j -> exists i, fst b' = Some i /\ j <= i)).
    { unfold b'. destruct (match_index device f) as [i|] eqn:E; [|split; [left; reflexivity|split; [intros m H; exists m; auto|discriminate]]].
      destruct (fst best) as [m0|] eqn:Eb; [|split; [right; exists i; auto|split; [discriminate|intros j H; injection H as <-; exists i; auto]]].
      destruct (Nat.ltb_spec m0 i).
      - split; [right; exists i; auto|]. split; [intros m H'; injection H' as <-; exists i; simpl; split; [reflexivity|lia]|intros j H'; injection H' as <-; exists i; auto].
      - split; [left; reflexivity|]. split; [intros m H'; rewrite Eb; exists m; split; [congruence|lia]|intros j H'; injection H' as <-; rewrite Eb; exists m0; auto]. }
    destruct B as (B1 & B2 & B3). split; [|split].
    + destruct I1 as [E|(i & E1 & E2 & E3)]; [|right; exists i; split; [exact E1|split; [right; exact E2|exact E3]]].
      destruct B1 as [B1|(i & B1 & Bi)]; [left; congruence|]. right. exists i. rewrite E, B1. simpl. auto.
    + intros m H. destruct (B2 m H) as (i & Hi & L). destruct (I2 i Hi) as (i' & Hi' & L'). exists i'. split; [exact Hi'|lia].
    + intros g j [<-|Hg] Hj; [|eapply I3; eassumption]. destruct (B3 j Hj) as (i & Hi & L). destruct (I2 i Hi) as (i' & Hi' & L'). exists i'. split; [exact Hi'|lia].
Qed.

Lemma filter_one {A} (f : A -> bool) l : NoDup l -> forall a b, In a l -> In b l -> f a = true -> f b = true -> a <> b -> forall c, filter f l <> [c].
Proof.
  intros _ a b Ha Hb Fa Fb N c E. assert (A1 : In a (filter f l)) by (apply filter_In; auto). assert (B1 : In b (filter f l)) by (apply filter_In; auto).
  rewrite E in A1, B1. destruct A1 as [<-|[]]. destruct B1 as [<-|[]]. congruence.
Qed.

(** If the folder contains (possibly among files that do not match) at least two checkpoint files of the requested type, all written by the library, and one of them is for the device and numbered, then the
    result is the one with the largest number for that device, in whatever order the folder is listed. *)
Theorem C33_latest : forall listing type device,
  NoDup listing -> device_ok device ->
  (forall f, In f listing -> suffix_of (s_ ".pt") f -> substring type f -> exists c, f = file_of c /\ ckpt_ok c) ->
  (exists f g, f <> g /\ In f listing /\ In g listing /\ (suffix_of (s_ ".pt") f /\ substring type f) /\ (suffix_of (s_ ".pt") g /\ substring type g)) ->
  (exists c n, In (file_of c) listing /\ substring type (file_of c) /\ ckpt_ok c /\ c_iter c = Num n /\ c_dev c = device) ->
  exists c n, get_latest_checkpoint_name listing type device = file_of c /\ In (file_of c) listing /\ substring type (file_of c) /\ c_iter c = Num n /\ c_dev c = device /\
    forall c' n', In (file_of c') listing -> substring type (file_of c') -> ckpt_ok c' -> c_iter c' = Num n' -> c_dev c' = device -> n' <= n.
Proof.
  intros listing type device ND Hd Hall (f0 & g0 & N0 & If & Ig & [Sf Cf] & [Sg Cg]) (c0 & n0 & I0 & T0 & O0 & Nm0 & D0).
  unfold get_latest_checkpoint_name. set (P := fun f => ends_with (s_ ".pt") f && contains type f). set (files := filter P listing).
  assert (Pspec : forall f, P f = true <-> suffix_of (s_ ".pt") f /\ substring type f) by (intros f; unfold P; rewrite andb_true_iff, ends_iff, contains_iff; tauto).
  assert (Suf : forall c, suffix_of (s_ ".pt") (file_of c)).
  { intros c. unfold file_of, ckpt_name. eexists (c_kind c ++ s_ "_" ++ c_cls c ++ s_ "_ckpt_" ++ iter_string (c_iter c) ++ s_ "_device_" ++ c_dev c). rewrite <- !app_assoc. reflexivity. }
  assert (NotOne : forall c, files <> [c]) by (apply (filter_one P listing ND f0 g0 If Ig); [apply Pspec; auto|apply Pspec; auto|exact N0]).
  destruct (loop_spec device files (None, [])) as (L1 & _ & L3).
  assert (I0' : In (file_of c0) files) by (apply filter_In; split; [exact I0|apply Pspec; split; [apply Suf|exact T0]]).
  assert (M0 : forall c n, ckpt_ok c -> c_iter c = Num n -> c_dev c = device -> match_index device (file_of c) = Some n).
  { intros c n [O1 O2] E1 E2. unfold file_of. rewrite index_spec by assumption. rewrite E1, E2. rewrite (proj2 (str_eqb_iff _ _) eq_refl). reflexivity. }
  destruct (L3 _ _ I0' (M0 c0 n0 O0 Nm0 D0)) as (i & Hi & _).
  assert (R : snd (latest_loop device files (None, [])) = match files with [f] => f | _ => snd (latest_loop device files (None, [])) end).
  { destruct files as [|a [|b l]]; try reflexivity. exfalso. apply (NotOne a). reflexivity. }
  rewrite <- R. destruct L1 as [E|(i' & E1 & E2 & E3)]; [rewrite E in Hi; discriminate|]. rewrite E1 in Hi. injection Hi as ->.
  apply filter_In in E2 as [E2 P2]. apply Pspec in P2 as [P2 P3]. destruct (Hall _ E2 P2 P3) as (c & Ec & Oc). rewrite Ec in *.
  destruct Oc as [O1 O2]. pose proof E3 as E4. unfold file_of in E4. rewrite index_spec in E4 by assumption. destruct (c_iter c) as [n|s] eqn:Qi; [|discriminate].
  destruct (str_eqb (c_dev c) device) eqn:Qd; [|discriminate]. injection E4 as ->. apply str_eqb_iff in Qd.
  exists c, i. split; [reflexivity|]. split; [exact E2|]. split; [exact P3|]. split; [exact Qi|]. split; [exact Qd|].
  intros c' n' I' T' O' N' D'. destruct (L3 (file_of c') n') as (k & Hk & Lk).
  - apply filter_In. split; [exact I'|apply Pspec; split; [apply Suf|exact T']].
  - apply M0; assumption.
  - rewrite E1 in Hk. injection Hk as <-. exact Lk.
Qed.

(** ** Resuming after complete checkpoints *)
Section Resume.
  Variables model_cls opt_cls device : str.
  Hypothesis Hdev : device_ok device.
  Definition mname (n : nat) : str := ckpt_name (s_ "model") model_cls (Num n) device.
  Definition oname (n : nat) : str := ckpt_name (s_ "opt") opt_cls (Num n) device.
  (** Class names do not make a model file look like an optimiser file or the other way round. *)
  Hypothesis Hm : forall n, ~ substring (s_ "opt") (mname n).
  Hypothesis Ho : forall n, ~ substring (s_ "model") (oname n).

  Lemma mname_inj n k : mname n = mname k -> n = k.
  Proof. intros E. pose proof (f_equal (match_index device) E) as H. unfold mname in H. rewrite !index_spec in H by (simpl; auto). rewrite (proj2 (str_eqb_iff _ _) eq_refl) in H. congruence. Qed.
  Lemma oname_inj n k : oname n = oname k -> n = k.
  Proof. intros E. pose proof (f_equal (match_index device) E) as H. unfold oname in H. rewrite !index_spec in H by (simpl; auto). rewrite (proj2 (str_eqb_iff _ _) eq_refl) in H. congruence. Qed.
  Lemma mname_model n : substring (s_ "model") (mname n).
  Proof. unfold mname, ckpt_name. exists []. eexists. reflexivity. Qed.
  Lemma oname_opt n : substring (s_ "opt") (oname n).
  Proof. unfold oname, ckpt_name. exists []. eexists. reflexivity. Qed.
  Lemma name_suffix kind cls i : suffix_of (s_ ".pt") (ckpt_name kind cls i device).
  Proof. unfold ckpt_name. eexists (kind ++ s_ "_" ++ cls ++ s_ "_ckpt_" ++ iter_string i ++ s_ "_device_" ++ device). rewrite <- !app_assoc. reflexivity. Qed.
  Lemma mo_differ n k : mname n <> oname k.
  Proof. intros E. apply (Hm n). rewrite E. apply oname_opt. Qed.

  Lemma find_save f name c x : find (save f name c) x = if str_eqb name x then Some c else find f x.
  Proof.
    unfold save. induction f as [|[a ca] f IH]; simpl; [destruct (str_eqb name x); reflexivity|]. destruct (str_eqb a name) eqn:E; simpl.
    - rewrite IH. apply str_eqb_iff in E as ->. destruct (str_eqb name x); reflexivity.
    - rewrite IH. destruct (str_eqb name x) eqn:E1; [|reflexivity]. apply str_eqb_iff in E1 as ->. rewrite E. reflexivity.
  Qed.
  Lemma names_save f name c : forall x, In x (map fst (save f name c)) <-> x = name \/ In x (map fst f).
  Proof.
    intros x. unfold save. rewrite map_app, in_app_iff. simpl. split.
    - intros [H|[H|[]]]; [|left; congruence]. apply in_map_iff in H as ([a ca] & <- & H). apply filter_In in H as [H _]. right. apply in_map_iff. exists (a, ca). auto.
    - intros [->|H]; [right; left; reflexivity|]. destruct (str_eqb x name) eqn:E; [apply str_eqb_iff in E; right; left; congruence|]. left. apply in_map_iff in H as ([a ca] & <- & H).
      apply in_map_iff. exists (a, ca). split; [reflexivity|]. apply filter_In. split; [exact H|]. simpl in *. rewrite E. reflexivity.
  Qed.
  Lemma nodup_save f name c : NoDup (map fst f) -> NoDup (map fst (save f name c)).
  Proof.
    intros H. unfold save. rewrite map_app. apply (Permutation_NoDup (l := name :: map fst (filter (fun nc => negb (str_eqb (fst nc) name)) f))).
    - simpl. apply Permutation_cons_append.
    - constructor.
      + intros I. apply in_map_iff in I as ([a ca] & <- & I). apply filter_In in I as [_ I]. simpl in I. rewrite (proj2 (str_eqb_iff _ _) eq_refl) in I. discriminate.
      + clear -H. induction f as [|[a ca] f IH]; simpl; [constructor|]. simpl in H. inversion H as [|? ? N ND]; subst. destruct (negb (str_eqb a name)); [|apply IH, ND]. simpl. constructor; [|apply IH, ND].
        intros I. apply N. apply in_map_iff in I as (x & <- & I). apply filter_In in I as [I _]. apply in_map, I.
  Qed.

  Definition num (j : job) : nat := match j_iter j with Num n => n | Label _ => 0 end.
  Definition numbered (jobs : list job) : Prop := Forall (fun j => j_iter j = Num (num j)) jobs.
  (** the last job for iteration n *)
  Definition last_for (jobs : list job) (n : nat) : option job := List.find (fun j => Nat.eqb (num j) n) (rev jobs).
  Definition all_writes (jobs : list job) : folder := do_writes [] (flat_map (writes model_cls opt_cls device) jobs).

  Lemma all_writes_snoc jobs j : j_iter j = Num (num j) ->
    all_writes (jobs ++ [j]) = save (save (all_writes jobs) (mname (num j)) (Saved (Num (num j)) (j_model j))) (oname (num j)) (Saved (Num (num j)) (j_opt j)).
  Proof. intros E. unfold all_writes, do_writes. rewrite flat_map_app, fold_left_app. simpl. rewrite E. reflexivity. Qed.

  Lemma folder_spec jobs : numbered jobs ->
    NoDup (map fst (all_writes jobs)) /\
    (forall x, In x (map fst (all_writes jobs)) <-> exists j, In j jobs /\ (x = mname (num j) \/ x = oname (num j))) /\
    (forall n, find (all_writes jobs) (mname n) = option_map (fun j => Saved (Num n) (j_model j)) (last_for jobs n)) /\
    (forall n, find (all_writes jobs) (oname n) = option_map (fun j => Saved (Num n) (j_opt j)) (last_for jobs n)).
  Proof.
    induction jobs as [|j jobs IH] using rev_ind; intros H.
    - split; [constructor|]. split; [intros x; split; [intros []|intros (j & [] & _)]|]. split; reflexivity.
    - apply Forall_app in H as [H Hj]. inversion Hj as [|? ? E _]; subst. destruct (IH H) as (I1 & I2 & I3 & I4). rewrite all_writes_snoc by exact E. split; [apply nodup_save, nodup_save, I1|]. split; [|split].
      + intros x. rewrite !names_save, I2. split.
        * intros [->|[->|(j' & Hj' & X)]]; [exists j; split; [apply in_or_app; right; left; reflexivity|auto]|exists j; split; [apply in_or_app; right; left; reflexivity|auto]|exists j'; split; [apply in_or_app; left; exact Hj'|exact X]].
        * intros (j' & Hj' & X). apply in_app_or in Hj' as [Hj'|[<-|[]]]; [right; right; exists j'; auto|]. destruct X as [->| ->]; auto.
      + intros n. rewrite !find_save. unfold last_for. rewrite rev_app_distr. cbn [rev app List.find].
        replace (str_eqb (oname (num j)) (mname n)) with false by (symmetry; destruct (str_eqb _ _) eqn:Q; [apply str_eqb_iff in Q; symmetry in Q; apply mo_differ in Q; destruct Q|reflexivity]).
        destruct (Nat.eqb_spec (num j) n) as [->|N]; [rewrite (proj2 (str_eqb_iff _ _) eq_refl); reflexivity|].
        replace (str_eqb (mname (num j)) (mname n)) with false by (symmetry; destruct (str_eqb _ _) eqn:Q; [apply str_eqb_iff in Q; apply mname_inj in Q; congruence|reflexivity]). apply I3.
      + intros n. rewrite !find_save. unfold last_for. rewrite rev_app_distr. cbn [rev app List.find].
        destruct (Nat.eqb_spec (num j) n) as [->|N]; [rewrite (proj2 (str_eqb_iff _ _) eq_refl); reflexivity|].
        replace (str_eqb (oname (num j)) (oname n)) with false by (symmetry; destruct (str_eqb _ _) eqn:Q; [apply str_eqb_iff in Q; apply oname_inj in Q; congruence|reflexivity]).
        replace (str_eqb (mname (num j)) (oname n)) with false by (symmetry; destruct (str_eqb _ _) eqn:Q; [apply str_eqb_iff in Q; apply mo_differ in Q; destruct Q|reflexivity]). apply I4.
  Qed.

  (** The name chosen in a folder whose files of the type are exactly those of a list of numbers. *)
  Lemma latest_of (type : str) (nm : nat -> str) (listing : list str) (ns : list nat) :
    (forall n, match_index device (nm n) = Some n) -> (forall n, suffix_of (s_ ".pt") (nm n)) -> (forall n, substring type (nm n)) ->
    NoDup listing -> (forall x, In x listing -> substring type x -> exists n, In n ns /\ x = nm n) -> (forall n, In n ns -> In (nm n) listing) -> ns <> [] ->
    exists n, In n ns /\ (forall k, In k ns -> k <= n) /\ get_latest_checkpoint_name listing type device = nm n.
  Proof.
    intros Hi Hs Ht ND HI HO Hne. unfold get_latest_checkpoint_name. set (P := fun f => ends_with (s_ ".pt") f && contains type f). set (files := filter P listing).
    assert (F1 : forall n, In n ns -> In (nm n) files) by (intros n Hn; apply filter_In; split; [apply HO, Hn|]; unfold P; rewrite andb_true_iff, ends_iff, contains_iff; auto).
    assert (F2 : forall x, In x files -> exists n, In n ns /\ x = nm n).
    { intros x Hx. apply filter_In in Hx as [Hx Px]. unfold P in Px. rewrite andb_true_iff, ends_iff, contains_iff in Px. apply HI; tauto. }
    assert (inj : forall a b, nm a = nm b -> a = b) by (intros a b E; pose proof (Hi a) as H1; rewrite E, Hi in H1; congruence).
    destruct ns as [|n0 ns'] eqn:Ens; [congruence|]. rewrite <- Ens in *. assert (In0 : In n0 ns) by (rewrite Ens; left; reflexivity).
    destruct (loop_spec device files (None, [])) as (L1 & _ & L3). destruct (L3 _ _ (F1 n0 In0) (Hi n0)) as (i & Ei & _).
    destruct L1 as [E|(i' & E1 & E2 & E3)]; [rewrite E in Ei; discriminate|]. rewrite E1 in Ei. injection Ei as ->.
    destruct (F2 _ E2) as (n & Hn & En). rewrite En, Hi in E3. injection E3 as ->. exists i. split; [exact Hn|]. split.
    - intros k Hk. destruct (L3 _ _ (F1 k Hk) (Hi k)) as (i2 & Q & L). rewrite E1 in Q. injection Q as <-. exact L.
    - destruct files as [|a [|b l]] eqn:Ef; [destruct E2| |exact En].
      destruct (F1 i Hn) as [<-|[]]. reflexivity.
  Qed.

  (** After any sequence of complete checkpoint writes, in whatever order the folder is listed, resuming loads the model and the optimiser state of the same checkpoint, the one with the largest iteration
      (the most recent one if several were written for that iteration). *)
  Theorem C33_resume : forall jobs listing1 listing2, numbered jobs -> jobs <> [] ->
    let f := after_crash model_cls opt_cls device jobs (2 * List.length jobs) in
    Permutation listing1 (map fst f) -> Permutation listing2 (map fst f) ->
    exists j, In j jobs /\ (forall j', In j' jobs -> num j' <= num j) /\ last_for jobs (num j) = Some j /\
      load_model device f listing1 = (Some (j_model j), Num (num j)) /\ load_opt device f listing2 = Some (j_opt j, Num (num j)).
  Proof.
    intros jobs l1 l2 Hn Hne f. assert (Ef : f = all_writes jobs).
    { unfold f, after_crash, all_writes. f_equal. apply firstn_all2. clear. induction jobs as [|j jobs IH]; [simpl; lia|]. simpl flat_map. simpl List.length in *. lia. }
    clearbody f. subst f. intros P1 P2. destruct (folder_spec jobs Hn) as (ND & I & FM & FO).
    assert (Names : map num jobs <> []) by (destruct jobs; [congruence|discriminate]).
    assert (A1 : exists n, In n (map num jobs) /\ (forall k, In k (map num jobs) -> k <= n) /\ get_latest_checkpoint_name l1 (s_ "model") device = mname n).
    { apply latest_of; [intros n; unfold mname; rewrite index_spec by (simpl; auto); rewrite (proj2 (str_eqb_iff _ _) eq_refl); reflexivity|intros n; apply name_suffix|apply mname_model| | | |exact Names].
      - eapply Permutation_NoDup; [symmetry; exact P1|exact ND].
      - intros x Hx Sx. apply (Permutation_in _ P1), I in Hx as (j & Hj & [->| ->]); [exists (num j); split; [apply in_map, Hj|reflexivity]|]. destruct (Ho _ Sx).
      - intros n H. apply in_map_iff in H as (j & <- & Hj). apply (Permutation_in _ (Permutation_sym P1)), I. exists j. auto. }
    assert (A2 : exists n, In n (map num jobs) /\ (forall k, In k (map num jobs) -> k <= n) /\ get_latest_checkpoint_name l2 (s_ "opt") device = oname n).
    { apply latest_of; [intros n; unfold oname; rewrite index_spec by (simpl; auto); rewrite (proj2 (str_eqb_iff _ _) eq_refl); reflexivity|intros n; apply name_suffix|apply oname_opt| | | |exact Names].
      - eapply Permutation_NoDup; [symmetry; exact P2|exact ND].
      - intros x Hx Sx. apply (Permutation_in _ P2), I in Hx as (j & Hj & [->| ->]); [destruct (Hm _ Sx)|exists (num j); split; [apply in_map, Hj|reflexivity]].
      - intros n H. apply in_map_iff in H as (j & <- & Hj). apply (Permutation_in _ (Permutation_sym P2)), I. exists j. auto. }
    destruct A1 as (n & N1 & N2 & N3). destruct A2 as (n' & N1' & N2' & N3'). assert (n' = n) as -> by (pose proof (N2 _ N1'); pose proof (N2' _ N1); lia).
    assert (L : exists j, last_for jobs n = Some j /\ In j jobs /\ num j = n).
    { unfold last_for. destruct (List.find _ (rev jobs)) as [j|] eqn:E.
      - apply find_some in E as [E1 E2]. apply Nat.eqb_eq in E2. exists j. split; [reflexivity|]. split; [apply in_rev, E1|exact E2].
      - apply in_map_iff in N1 as (j & <- & Hj). pose proof (find_none _ _ E j (proj1 (in_rev _ _) Hj)) as Q. simpl in Q. rewrite Nat.eqb_refl in Q. discriminate. }
    destruct L as (j & L1 & L2 & <-). exists j. split; [exact L2|]. split; [intros j' Hj'; apply N2, in_map, Hj'|]. split; [exact L1|].
    unfold load_model, load_opt. rewrite N3, N3', FM, FO, L1. split; reflexivity.
  Qed.
End Resume.


(** ** Findings *)
Definition QNN := s_ "QNN". Definition Adam := s_ "Adam". Definition cpu := s_ "cpu".
Definition two_jobs : list job := [{| j_iter := Num 1; j_model := 11; j_opt := 21 |}; {| j_iter := Num 2; j_model := 12; j_opt := 22 |}].
(** A crash between the model write and the optimiser write of one checkpoint: resuming combines the model of iteration 2 with the optimiser of iteration 1, without any error. *)
Theorem C33_crash_refuted : let f := after_crash QNN Adam cpu two_jobs 3 in
  load_model cpu f (map fst f) = (Some 12, Num 2) /\ load_opt cpu f (map fst f) = Some (21, Num 1).
Proof. split; vm_compute; reflexivity. Qed.
(** A crash while the model file is being written: the unreadable file is chosen, nothing is loaded into the model, the run restarts at iteration 0, but the optimiser state of iteration 1 is loaded. *)
Theorem C33_torn_write_refuted : let f := save (after_crash QNN Adam cpu two_jobs 2) (ckpt_name (s_ "model") QNN (Num 2) cpu) Corrupt in
  load_model cpu f (map fst f) = (None, Num 0) /\ load_opt cpu f (map fst f) = Some (21, Num 1).
Proof. split; vm_compute; reflexivity. Qed.
(** With a single file the device is ignored. *)
Theorem C33_single_file_refuted : get_latest_checkpoint_name [ckpt_name (s_ "model") QNN (Num 7) (s_ "cuda")] (s_ "model") cpu = ckpt_name (s_ "model") QNN (Num 7) (s_ "cuda").
Proof. vm_compute. reflexivity. Qed.
(** The type is searched anywhere in the name: a model class whose name contains "opt" makes its checkpoint an optimiser checkpoint. *)
Theorem C33_class_name_refuted : let f := do_writes [] (flat_map (writes (s_ "Adopted") Adam cpu) two_jobs) in
  get_latest_checkpoint_name (map fst f) (s_ "opt") cpu = ckpt_name (s_ "model") (s_ "Adopted") (Num 2) cpu.
Proof. vm_compute. reflexivity. Qed.

(** The hypotheses of C33_resume hold for the names used in practice: "opt" does not occur in the name of any QNN checkpoint. *)
Lemma contains_app_char (p l1 l2 : str) c : ~ In c p -> contains p (l1 ++ c :: l2) = true -> contains p (l1 ++ [c]) = true \/ contains p (c :: l2) = true.
Proof.
  intros N H. apply contains_iff in H as (a & b & E). revert l1 E. induction a as [|x a IH]; intros l1 E.
  - simpl in E. destruct (le_lt_dec (List.length p) (List.length l1)) as [L|L].
    + left. apply contains_iff. exists []. assert (exists r, l1 = p ++ r) as (r & ->).
      { exists (skipn (List.length p) l1). pose proof (f_equal (firstn (List.length p)) E) as Q. rewrite !firstn_app in Q. replace (List.length p - List.length l1) with 0 in Q by lia. rewrite Nat.sub_diag, !firstn_O, !app_nil_r, firstn_all in Q. rewrite <- Q at 1. symmetry. apply firstn_skipn. }
      exists (r ++ [c]). rewrite <- app_assoc. reflexivity.
    + exfalso. apply N. pose proof (f_equal (fun l => nth (List.length l1) l c) E) as Q. simpl in Q. rewrite app_nth2, Nat.sub_diag in Q by lia. simpl in Q. rewrite app_nth1 in Q by lia. rewrite Q. apply nth_In, L.
  - destruct l1 as [|y l1].
    + right. apply contains_iff. exists (x :: a), b. exact E.
    + injection E as -> E. destruct (IH l1 E) as [H|H]; [|right; exact H]. left. simpl. rewrite H. apply orb_true_r.
Qed.
Lemma digits_no_sub p ds : Forall (fun c => is_digit c = true) ds -> (exists c, In c p /\ is_digit c = false /\ c <> "_"%char) -> contains p (ds ++ ["_"%char]) = false.
Proof.
  intros F (c & Hc & D & N). destruct (contains p (ds ++ ["_"%char])) eqn:E; [|reflexivity]. exfalso. apply contains_iff in E as (a & b & E).
  assert (I : In c (ds ++ ["_"%char])) by (rewrite E; apply in_or_app; right; apply in_or_app; left; exact Hc). apply in_app_or in I as [I|[I|[]]]; [|congruence]. rewrite Forall_forall in F. rewrite (F c I) in D. discriminate.
Qed.
Lemma snoc_no_sub p l1 ds l2 : ~ In "_"%char p -> (exists c, In c p /\ is_digit c = false /\ c <> "_"%char) -> Forall (fun c => is_digit c = true) ds ->
  contains p (l1 ++ ["_"%char]) = false -> contains p ("_"%char :: ds ++ ["_"%char]) = false -> contains p ("_"%char :: l2) = false -> contains p (l1 ++ "_"%char :: ds ++ "_"%char :: l2) = false.
Proof.
  intros Hu Hc F H1 H2 H3. destruct (contains p (l1 ++ "_"%char :: ds ++ "_"%char :: l2)) eqn:E; [|reflexivity]. exfalso.
  apply contains_app_char in E as [E|E]; [congruence| |exact Hu]. change ("_"%char :: ds ++ "_"%char :: l2) with (("_"%char :: ds) ++ "_"%char :: l2) in E.
  apply contains_app_char in E as [E|E]; [simpl in E, H2; congruence|congruence|exact Hu].
Qed.
Example C33_names : device_ok cpu /\ (forall n, ~ substring (s_ "opt") (mname QNN cpu n)) /\ (forall n, ~ substring (s_ "model") (oname Adam cpu n)).
Proof.
  split; [split; [discriminate|repeat constructor; discriminate]|].
  assert (G : forall p kind cls n, ~ In "_"%char p -> (exists c, In c p /\ is_digit c = false /\ c <> "_"%char) ->
     contains p ((kind ++ s_ "_" ++ cls ++ s_ "_ckpt") ++ ["_"%char]) = false -> contains p (s_ "_device_" ++ cpu ++ s_ ".pt") = false -> starts_with p ["_"%char] = false ->
     ~ substring p (ckpt_name kind cls (Num n) cpu)).
  { intros p kind cls n Hu Hc H1 H2 H3 S. apply contains_iff in S. replace (ckpt_name kind cls (Num n) cpu) with ((kind ++ s_ "_" ++ cls ++ s_ "_ckpt") ++ "_"%char :: format03 n ++ "_"%char :: (s_ "device_" ++ cpu ++ s_ ".pt")) in S.
    - rewrite snoc_no_sub in S; [discriminate|exact Hu|exact Hc|apply format_spec|exact H1| |exact H2].
      simpl. rewrite digits_no_sub; [|apply format_spec|exact Hc]. rewrite orb_false_r. destruct (starts_with p ("_"%char :: format03 n ++ ["_"%char])) eqn:Q; [|reflexivity]. exfalso.
      apply starts_iff in Q as (r & Q). destruct p as [|x p]; [destruct Hc as (? & [] & _)|]. simpl in Q. injection Q as <- _. apply Hu. left. reflexivity.
    - unfold ckpt_name. rewrite <- !app_assoc. reflexivity. }
  split; intros n.
  - apply G; [intros [H|[H|[H|[]]]]; discriminate|exists "o"%char; split; [left; reflexivity|split; [reflexivity|discriminate]]|reflexivity|reflexivity|reflexivity].
  - apply G; [intros [H|[H|[H|[H|[H|[]]]]]]; discriminate|exists "m"%char; split; [left; reflexivity|split; [reflexivity|discriminate]]|reflexivity|reflexivity|reflexivity].
Qed.
Example C33_witness : numbered two_jobs /\ two_jobs <> [] /\ load_model cpu (after_crash QNN Adam cpu two_jobs 4) (map fst (after_crash QNN Adam cpu two_jobs 4)) = (Some 12, Num 2).
Proof. split; [repeat constructor|]. split; [discriminate|vm_compute; reflexivity]. Qed.

Print Assumptions C33_latest.
Print Assumptions C33_resume.
Print Assumptions C33_crash_refuted.
Print Assumptions C33_torn_write_refuted.
Print Assumptions C33_single_file_refuted.
Print Assumptions C33_class_name_refuted.
