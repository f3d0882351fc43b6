(** C60: derivatives with respect to the inputs. *)
From Coq Require Import Reals List Arith Bool Lia Lra FunctionalExtensionality.
From Coquelicot Require Import Coquelicot.
From Coq Require Import List.
From Verif Require Import M_Derivative.
Import ListNotations.
Open Scope R_scope.

(** * Specification *)
Definition point := nat -> R.
(** x with s added to its coordinate i. *)
Definition shift (x : point) (i : nat) (s : R) : point := fun j => if Nat.eqb j i then x j + s else x j.
(** g is the partial derivative of f with respect to coordinate i, everywhere. *)
Definition is_partial (f : point -> R) (i : nat) (g : point -> R) : Prop := forall x, is_derive (fun s => f (shift x i s)) 0 (g x).
(** All the iterated partial derivatives of f: [D [i; j]] is the derivative with respect to coordinate i of the derivative with respect to j. *)
Definition derivatives (f : point -> R) (D : list nat -> point -> R) : Prop := D [] = f /\ forall l i, is_partial (D l) i (D (i :: l)).
(** The model treats the rows of a batch independently: row r of the output is f of row r. *)
Definition row_wise (rows : nat) (F : batch -> outputs) (f : point -> R) : Prop := forall x r, (r < rows)%nat -> F x r = f (x r).

(** * One variable *)
Ltac req := match goal with |- @eq _ ?a ?b => change (@eq R a b) end.
Lemma mvt (p p' : R -> R) a b : (forall t, is_derive p t (p' t)) -> exists c, Rmin a b <= c <= Rmax a b /\ p b - p a = p' c * (b - a).
Proof.
  intros H. apply MVT_gen; intros t _; [apply H|]. apply continuity_pt_filterlim. apply (ex_derive_continuous p). eexists. apply H.
Qed.
Lemma second (p p1 p2 : R -> R) t e : 0 <= e -> (forall t, is_derive p t (p1 t)) -> (forall t, is_derive p1 t (p2 t)) ->
  exists c, Rabs (c - t) <= e /\ p (t + e) + p (t - e) - 2 * p t = e ^ 2 * p2 c.
Proof.
  intros E H1 H2. destruct (mvt (fun s => p s - p (s - e)) (fun s => p1 s - p1 (s - e)) t (t + e)) as (c & B & Q).
  { intros s. apply (is_derive_minus (V := R_NormedModule)); [apply H1|]. replace (p1 (s - e)) with (scal 1 (p1 (s - e))) by (unfold scal; simpl; unfold mult; simpl; ring).
    apply (is_derive_comp p (fun s => s - e)); [apply H1|]. auto_derive; [exact I|ring]. }
  destruct (mvt p1 p2 (c - e) c H2) as (d & B' & Q'). unfold Rmin, Rmax in *. destruct (Rle_dec t (t + e)); [|lra]. destruct (Rle_dec (c - e) c); [|lra].
  exists d. split; [apply Rabs_le; lra|]. replace (p (t + e) + p (t - e) - 2 * p t) with (p (t + e) - p (t + e - e) - (p t - p (t - e))) by (replace (t + e - e) with t by ring; ring).
  rewrite Q. replace (p1 c - p1 (c - e)) with (p2 d * (c - (c - e))) by (symmetry; exact Q'). ring.
Qed.
Lemma shift_derive (p p1 : R -> R) a : (forall t, is_derive p t (p1 t)) -> forall t, is_derive (fun s => p (s + a)) t (p1 (t + a)).
Proof.
  intros H t. replace (p1 (t + a)) with (scal 1 (p1 (t + a))) by (unfold scal; simpl; unfold mult; simpl; ring). apply (is_derive_comp p (fun s => s + a)); [apply H|]. auto_derive; [exact I|ring].
Qed.
Lemma scale_derive (p p1 : R -> R) a : (forall t, is_derive p t (p1 t)) -> forall t, is_derive (fun s => p (a * s)) t (a * p1 (a * t)).
Proof.
  intros H t. replace (a * p1 (a * t)) with (scal a (p1 (a * t))) by (unfold scal; simpl; unfold mult; simpl; ring). apply (is_derive_comp p (fun s => a * s)); [apply H|]. auto_derive; [exact I|ring].
Qed.
(** A function that vanishes at 0 and whose slope is at most K t^n is at most K t^(n+1)/(n+1). *)
Lemma slope (p p1 : R -> R) K n e : 0 <= e -> (forall t, is_derive p t (p1 t)) -> p 0 = 0 -> (forall t, 0 <= t <= e -> Rabs (p1 t) <= K * t ^ n) -> Rabs (p e) <= K * e ^ (n + 1) / INR (n + 1).
Proof.
  intros E H Z B. assert (N : INR (n + 1) <> 0) by (apply not_0_INR; lia).
  assert (Dm : forall s t, is_derive (fun t => p t - s * (K * t ^ (n + 1) / INR (n + 1))) t (p1 t - s * (K * t ^ n))).
  { intros s t. apply (is_derive_minus (V := R_NormedModule)); [apply H|]. auto_derive; [exact I|]. replace (pred (n + 1)) with n by lia. field. exact N. }
  assert (S : forall s, s = 1 \/ s = -1 -> s * p e <= K * e ^ (n + 1) / INR (n + 1)).
  { intros s Hs. destruct (mvt _ _ 0 e (Dm s)) as (c & Bc & Q). unfold Rmin, Rmax in Bc. destruct (Rle_dec 0 e); [|lra]. rewrite Z, pow_i in Q by lia.
    assert (L := B c Bc). assert (s * (p1 c - s * (K * c ^ n)) <= 0).
    { apply Rabs_le_between in L. destruct Hs as [-> | ->]; lra. }
    assert (s * (p e - s * (K * e ^ (n + 1) / INR (n + 1))) <= 0).
    { replace (p e - s * (K * e ^ (n + 1) / INR (n + 1))) with ((p1 c - s * (K * c ^ n)) * (e - 0)) by (rewrite <- Q; unfold Rdiv; ring). rewrite <- Rmult_assoc. apply Rmult_le_0_r; lra. }
    destruct Hs as [-> | ->]; lra. }
  apply Rabs_le. split; [pose proof (S (-1) (or_intror eq_refl))|pose proof (S 1 (or_introl eq_refl))]; lra.
Qed.
Section Errors.
  Variable M : R.
  Lemma central (p p1 p2 p3 : R -> R) e : 0 < e -> (forall t, is_derive p t (p1 t)) -> (forall t, is_derive p1 t (p2 t)) -> (forall t, is_derive p2 t (p3 t)) -> (forall t, Rabs (p3 t) <= M) ->
    Rabs (p e - p (- e) - 2 * e * p1 0) <= M * e ^ 3 / 3.
  Proof.
    intros E H1 H2 H3 B.
    assert (K := slope (fun t => p t - p (- t) - 2 * t * p1 0) (fun t => p1 t + p1 (- t) - 2 * p1 0) M 2 e). replace (INR (2 + 1)) with 3 in K by (simpl; lra). apply K; [lra| | |].
    - intros t. replace (p1 t + p1 (- t) - 2 * p1 0) with ((p1 t - (-1) * p1 ((-1) * t)) - 2 * p1 0) by (replace ((-1) * t) with (- t) by ring; ring).
      apply (is_derive_minus (V := R_NormedModule)); [|auto_derive; [exact I|ring]]. apply (is_derive_minus (V := R_NormedModule)); [apply H1|].
      apply (is_derive_ext (fun s => p ((-1) * s))); [intros s; f_equal; ring|]. apply scale_derive, H1.
    - rewrite Ropp_0. ring.
    - intros t Bt. destruct (second p1 p2 p3 0 t ltac:(lra) H2 H3) as (c & _ & Q). replace (0 + t) with t in Q by ring. replace (0 - t) with (- t) in Q by ring. rewrite Q, Rabs_mult, Rmult_comm.
      rewrite (Rabs_right (t ^ 2)) by (apply Rle_ge, pow_le; lra). apply Rmult_le_compat_r; [apply pow_le; lra|apply B].
  Qed.
  Lemma central2 (p p1 p2 p3 p4 : R -> R) e : 0 <= e -> (forall t, is_derive p t (p1 t)) -> (forall t, is_derive p1 t (p2 t)) -> (forall t, is_derive p2 t (p3 t)) -> (forall t, is_derive p3 t (p4 t)) -> (forall t, Rabs (p4 t) <= M) ->
    Rabs (p e + p (- e) - 2 * p 0 - e ^ 2 * p2 0) <= M * e ^ 4 / 12.
  Proof.
    intros E H1 H2 H3 H4 B.
    assert (K := slope (fun t => p t + p (- t) - 2 * p 0 - t ^ 2 * p2 0) (fun t => p1 t - p1 (- t) - 2 * t * p2 0) (M / 3) 3 e). replace (INR (3 + 1)) with 4 in K by (simpl; lra).
    replace (M * e ^ 4 / 12) with (M / 3 * e ^ (3 + 1) / 4) by (simpl; field). apply K; [exact E| | |].
    - intros t. replace (p1 t - p1 (- t) - 2 * t * p2 0) with ((p1 t + (-1) * p1 ((-1) * t) - 0) - 2 * t * p2 0) by (replace ((-1) * t) with (- t) by ring; ring).
      apply (is_derive_minus (V := R_NormedModule)); [|auto_derive; [exact I|ring]]. apply (is_derive_minus (V := R_NormedModule)); [|apply (is_derive_const (V := R_NormedModule))]. apply (is_derive_plus (V := R_NormedModule)); [apply H1|].
      apply (is_derive_ext (fun s => p ((-1) * s))); [intros s; f_equal; ring|]. apply scale_derive, H1.
    - rewrite Ropp_0. ring.
    - intros t Bt. destruct (Req_dec t 0) as [-> |Nt]; [rewrite Ropp_0; replace (p1 0 - p1 0 - 2 * 0 * p2 0) with 0 by ring; rewrite Rabs_R0; simpl; lra|].
      replace (M / 3 * t ^ 3) with (M * t ^ 3 / 3) by field. apply (central p1 p2 p3 p4); auto. lra.
  Qed.
  Lemma central3 (p p1 p2 p3 p4 p5 : R -> R) e : 0 <= e -> (forall t, is_derive p t (p1 t)) -> (forall t, is_derive p1 t (p2 t)) -> (forall t, is_derive p2 t (p3 t)) -> (forall t, is_derive p3 t (p4 t)) -> (forall t, is_derive p4 t (p5 t)) -> (forall t, Rabs (p5 t) <= M) ->
    Rabs (p (2 * e) - 2 * p e + 2 * p (- e) - p (- (2 * e)) - 2 * e ^ 3 * p3 0) <= M * e ^ 5 * (17 / 30).
  Proof.
    intros E H1 H2 H3 H4 H5 B.
    assert (K := slope (fun t => p (2 * t) - 2 * p t + 2 * p (- t) - p (- (2 * t)) - 2 * t ^ 3 * p3 0)
      (fun t => 2 * ((p1 (2 * t) + p1 (- (2 * t)) - 2 * p1 0 - (2 * t) ^ 2 * p3 0) - (p1 t + p1 (- t) - 2 * p1 0 - t ^ 2 * p3 0))) (M * (17 / 6)) 4 e). replace (INR (4 + 1)) with 5 in K by (simpl; lra).
    replace (M * e ^ 5 * (17 / 30)) with (M * (17 / 6) * e ^ (4 + 1) / 5) by (simpl; field). apply K; [exact E| | |].
    - intros t. replace (2 * ((p1 (2 * t) + p1 (- (2 * t)) - 2 * p1 0 - (2 * t) ^ 2 * p3 0) - (p1 t + p1 (- t) - 2 * p1 0 - t ^ 2 * p3 0)))
        with (2 * p1 (2 * t) - 2 * p1 t + 2 * ((-1) * p1 ((-1) * t)) - (-2) * p1 ((-2) * t) - 6 * t ^ 2 * p3 0) by (replace ((-1) * t) with (- t) by ring; replace ((-2) * t) with (- (2 * t)) by ring; ring).
      apply (is_derive_minus (V := R_NormedModule)); [|auto_derive; [exact I|simpl; ring]].
      apply (is_derive_minus (V := R_NormedModule)); [|apply (is_derive_ext (fun s => p ((-2) * s))); [intros s; f_equal; ring|apply scale_derive, H1]].
      apply (is_derive_plus (V := R_NormedModule)); [|apply (is_derive_scal (fun s => p (- s))); apply (is_derive_ext (fun s => p ((-1) * s))); [intros s; f_equal; ring|apply scale_derive, H1]].
      apply (is_derive_minus (V := R_NormedModule)); [apply scale_derive, H1|]. apply (is_derive_scal p), H1.
    - rewrite !Rmult_0_r, !Ropp_0. ring.
    - intros t Bt. assert (A1 := central2 p1 p2 p3 p4 p5 (2 * t) ltac:(lra) H2 H3 H4 H5 B). assert (A2 := central2 p1 p2 p3 p4 p5 t ltac:(lra) H2 H3 H4 H5 B).
      rewrite Rabs_mult, (Rabs_right 2) by lra. replace (M * (17 / 6) * t ^ 4) with (2 * (M * (2 * t) ^ 4 / 12 + M * t ^ 4 / 12)) by field. apply Rmult_le_compat_l; [lra|].
      unfold Rminus at 1. eapply Rle_trans; [apply Rabs_triang|]. rewrite Rabs_Ropp. apply Rplus_le_compat; assumption.
  Qed.
End Errors.

(** * Points *)
Lemma shift_shift x i s t : shift (shift x i s) i t = shift x i (s + t).
Proof. apply functional_extensionality. intros j. unfold shift. destruct (Nat.eqb j i); ring. Qed.
Lemma shift_comm x i j s t : shift (shift x i s) j t = shift (shift x j t) i s.
Proof. apply functional_extensionality. intros k. unfold shift. destruct (Nat.eqb k i), (Nat.eqb k j); ring. Qed.
Lemma shift_0 x i : shift x i 0 = x.
Proof. apply functional_extensionality. intros k. unfold shift. destruct (Nat.eqb k i); ring. Qed.
Lemma partial_at f i g : is_partial f i g -> forall x t, is_derive (fun s => f (shift x i s)) t (g (shift x i t)).
Proof.
  intros H x t. apply (is_derive_ext (fun s => f (shift (shift x i t) i (s + - t)))); [intros s; rewrite shift_shift; f_equal; f_equal; ring|].
  pose proof (H (shift x i t)) as D. replace (g (shift x i t)) with (scal 1 (g (shift x i t))) by (unfold scal; simpl; unfold mult; simpl; ring).
  apply (is_derive_comp (fun u => f (shift (shift x i t) i u)) (fun s => s + - t)); [replace (t + - t) with 0 by ring; exact D|]. auto_derive; [exact I|ring].
Qed.
Lemma partial_other f i g j a : is_partial f i g -> forall x t, is_derive (fun s => f (shift (shift x i s) j a)) t (g (shift (shift x i t) j a)).
Proof. intros H x t. rewrite shift_comm. apply (is_derive_ext (fun s => f (shift (shift x j a) i s))); [intros s; rewrite shift_comm; reflexivity|]. apply partial_at, H. Qed.

(** * The differences, for one row *)
Section Rows.
  Variable machine_eps : R.
  Notation default_eps := (default_eps machine_eps).
  Definition the_step (eps : option R) (n : nat) : R := match eps with Some e => e | None => default_eps n end.
  Fixpoint fd (f : point -> R) (x : point) (di : list nat) (eps : option R) : R :=
    match di with
    | [] => 0
    | i :: di' =>
      let e := the_step eps (length di) in
      if Nat.ltb 3 (length di) || Nat.ltb 1 (length (nodup Nat.eq_dec di)) then (fd f (shift x i e) di' None - fd f (shift x i (- e)) di' None) * (1 / e) / 2
      else if Nat.eqb (length di) 3 then (f (shift x i (2 * e)) - 2 * f (shift x i e) + 2 * f (shift x i (- e)) - f (shift x i (- (2 * e)))) * (1 / e) ^ 3 / 2
      else if Nat.eqb (length di) 2 then (f (shift x i e) + f (shift x i (- e)) - 2 * f x) * (1 / e) ^ 2
      else (f (shift x i e) - f (shift x i (- e))) * (1 / e) / 2
    end.
  Lemma default_pos n : 0 < default_eps n.
  Proof. unfold M_Derivative.default_eps, Rpower. apply exp_pos. Qed.
  Lemma rows_fd rows cols F f di : row_wise rows F f -> (forall i, In i di -> (i < cols)%nat) -> di <> [] -> forall x eps, exists o, finitediff machine_eps cols F x di eps = Some o /\ forall r, (r < rows)%nat -> o r = fd f (x r) di eps.
  Proof.
    intros HF. induction di as [|i di IH]; intros Hi Ne x eps; [congruence|]. cbn [finitediff fd].
    destruct (Nat.leb_spec cols i) as [L|_]; [specialize (Hi i (or_introl eq_refl)); lia|].
    set (e := match eps with Some e => e | None => M_Derivative.default_eps machine_eps (length (i :: di)) end). change (the_step eps (length (i :: di))) with e.
    assert (P : forall r, badd x (direction i e) r = shift (x r) i e) by (intros r; apply functional_extensionality; intros j; unfold badd, direction, shift; destruct (Nat.eqb j i); ring).
    assert (Mn : forall r, bsub x (direction i e) r = shift (x r) i (- e)) by (intros r; apply functional_extensionality; intros j; unfold bsub, direction, shift; destruct (Nat.eqb j i); ring).
    assert (P2 : forall r, badd x (bscale 2 (direction i e)) r = shift (x r) i (2 * e)) by (intros r; apply functional_extensionality; intros j; unfold badd, bscale, direction, shift; destruct (Nat.eqb j i); ring).
    assert (M2 : forall r, bsub x (bscale 2 (direction i e)) r = shift (x r) i (- (2 * e))) by (intros r; apply functional_extensionality; intros j; unfold bsub, bscale, direction, shift; destruct (Nat.eqb j i); ring).
    destruct (Nat.ltb 3 (length (i :: di)) || Nat.ltb 1 (length (nodup Nat.eq_dec (i :: di)))) eqn:Rec.
    - assert (Nd : di <> []) by (intros ->; discriminate Rec). assert (Hi' : forall i, In i di -> (i < cols)%nat) by (intros k Ik; apply Hi; right; exact Ik).
      destruct (IH Hi' Nd (badd x (direction i e)) None) as (a & Ea & Ra). destruct (IH Hi' Nd (bsub x (direction i e)) None) as (b & Eb & Rb). rewrite Ea, Eb. eexists. split; [reflexivity|]. intros r Hr. cbv beta. rewrite Ra, Rb, P, Mn by exact Hr. reflexivity.
    - destruct (Nat.eqb (length (i :: di)) 3); [|destruct (Nat.eqb (length (i :: di)) 2)]; (eexists; split; [reflexivity|]); intros r Hr; cbv beta; rewrite !HF by exact Hr; rewrite ?P, ?Mn, ?P2, ?M2; reflexivity.
  Qed.
  Lemma fd_derive f i g : is_partial f i g -> forall di x t eps, is_derive (fun s => fd f (shift x i s) di eps) t (fd g (shift x i t) di eps).
  Proof.
    intros H. induction di as [|j di IH]; intros x t eps; [cbn [fd]; exact (is_derive_const (V := R_NormedModule) 0 t)|]. cbn [fd]. set (e := the_step eps (length (j :: di))).
    assert (S : forall a, is_derive (fun s => f (shift (shift x i s) j a)) t (g (shift (shift x i t) j a))) by (intros a; apply partial_other, H).
    assert (S' : forall a, is_derive (fun s => fd f (shift (shift x i s) j a) di None) t (fd g (shift (shift x i t) j a) di None)).
    { intros a. rewrite shift_comm. apply (is_derive_ext (fun s => fd f (shift (shift x j a) i s) di None)); [intros s; rewrite shift_comm; reflexivity|]. apply IH. }
    assert (Sc : forall (p : R -> R) d a b, is_derive p t d -> is_derive (fun s => p s * a / b) t (d * a / b)).
    { intros p d a b Hp. apply (is_derive_ext (fun s => (a / b) * p s)); [intros s; req; unfold Rdiv; ring|]. replace (d * a / b) with ((a / b) * d) by (unfold Rdiv; ring). apply (is_derive_scal p), Hp. }
    assert (S1 : is_derive (fun s => f (shift x i s)) t (g (shift x i t))) by apply partial_at, H.
    destruct (_ || _); [|destruct (Nat.eqb _ 3); [|destruct (Nat.eqb _ 2)]].
    - apply Sc. apply (is_derive_minus (V := R_NormedModule)); apply S'.
    - apply Sc. apply (is_derive_minus (V := R_NormedModule)); [|apply S]. apply (is_derive_plus (V := R_NormedModule)); [|apply (is_derive_scal (fun s => f (shift (shift x i s) j (- e)))), S]. apply (is_derive_minus (V := R_NormedModule)); [apply S|apply (is_derive_scal (fun s => f (shift (shift x i s) j e))), S].
    - apply (is_derive_ext (fun s => (f (shift (shift x i s) j e) + f (shift (shift x i s) j (- e)) - 2 * f (shift x i s)) * (1 / e) ^ 2 / 1)); [intros s; req; unfold Rdiv; rewrite Rinv_1; ring|]. replace ((g (shift (shift x i t) j e) + g (shift (shift x i t) j (- e)) - 2 * g (shift x i t)) * (1 / e) ^ 2) with ((g (shift (shift x i t) j e) + g (shift (shift x i t) j (- e)) - 2 * g (shift x i t)) * (1 / e) ^ 2 / 1) by (unfold Rdiv; rewrite Rinv_1; ring).
      apply Sc. apply (is_derive_minus (V := R_NormedModule)); [|apply (is_derive_scal (fun s => f (shift x i s))), S1]. apply (is_derive_plus (V := R_NormedModule)); apply S.
    - apply Sc. apply (is_derive_minus (V := R_NormedModule)); apply S.
  Qed.

  (** Steps used for n indices, all at most E. *)
  Definition steps_below (eps : option R) (n : nat) (E : R) : Prop :=
    (match eps with Some e => 0 < e <= E | None => True end) /\ forall k, (1 <= k <= n)%nat -> (eps <> None -> k <> n) -> default_eps k <= E.
  Lemma steps_tail eps n E : steps_below eps (S n) E -> steps_below None n E.
  Proof. intros [_ H]. split; [exact I|]. intros k Hk _. apply H; [lia|]. intros _. lia. Qed.
  Lemma steps_head eps n E : (1 <= n)%nat -> steps_below eps n E -> 0 < the_step eps n <= E.
  Proof. intros L [A B]. destruct eps as [e|]; cbn [the_step]; [exact A|]. split; [apply default_pos|apply B; [lia|congruence]]. Qed.
  Lemma base_cases i di : Nat.ltb 3 (length (i :: di)) || Nat.ltb 1 (length (nodup Nat.eq_dec (i :: di))) = false -> di = [] \/ di = [i] \/ di = [i; i].
  Proof.
    intros H. apply orb_false_iff in H as [H1 H2]. apply Nat.ltb_ge in H1. apply Nat.ltb_ge in H2.
    assert (A : forall j, In j (i :: di) -> j = i).
    { intros j J. destruct (Nat.eq_dec j i) as [Q|Q]; [exact Q|]. exfalso. assert (Nd := NoDup_nodup Nat.eq_dec (i :: di)).
      assert (L : (length [i; j] <= length (nodup Nat.eq_dec (i :: di)))%nat). { apply NoDup_incl_length; [constructor; [intros [Z|[]]; congruence|constructor; [intros []|constructor]]|]. intros k [<-|[<-|[]]]; apply nodup_In; [left; reflexivity|exact J]. } cbn [length] in L. lia. }
    destruct di as [|a [|b [|c di]]]; cbn [length] in H1; [left; reflexivity|right; left|right; right|lia]; rewrite ?(A a), ?(A b) by (cbn; auto); reflexivity.
  Qed.
  Lemma close_0 (x : point) E : 0 <= E -> forall j, Rabs (x j - x j) <= E.
  Proof. intros H j. replace (x j - x j) with 0 by ring. rewrite Rabs_R0. exact H. Qed.
  Lemma shift_close x i s j : Rabs (shift x i s j - x j) <= Rabs s /\ (j <> i -> shift x i s j = x j).
  Proof. unfold shift. destruct (Nat.eqb_spec j i) as [-> |N]; split; try tauto; [right; f_equal; ring|]. intros. replace (x j - x j) with 0 by ring. rewrite Rabs_R0. apply Rabs_pos. Qed.

  (** * The differences are derivatives at points nearby *)
  Lemma mean_value D : (forall l i, is_partial (D l) i (D (i :: l))) -> forall di l x eps E, di <> [] -> steps_below eps (length di) E ->
    exists y, fd (D l) x di eps = D (rev di ++ l) y /\ (forall j, Rabs (y j - x j) <= INR (length di) * E) /\ (forall j, ~ In j di -> y j = x j).
  Proof.
    intros HD. induction di as [|i di IH]; intros l x eps E Ne St; [congruence|]. clear Ne. cbn [fd]. set (n := length (i :: di)) in *. assert (n1 : (1 <= n)%nat) by (unfold n; cbn; lia).
    destruct (steps_head eps n E n1 St) as [P B]. set (e := the_step eps n) in *.
    destruct (Nat.ltb 3 n || Nat.ltb 1 (length (nodup Nat.eq_dec (i :: di)))) eqn:Rec.
    - assert (Nd : di <> []) by (intros ->; discriminate Rec).
      destruct (mvt (fun s => fd (D l) (shift x i s) di None) (fun s => fd (D (i :: l)) (shift x i s) di None) (- e) e) as (c & Bc & Q); [intros t; apply fd_derive, HD|].
      unfold Rmin, Rmax in Bc. destruct (Rle_dec (- e) e); [|lra]. destruct (IH (i :: l) (shift x i c) None E Nd (steps_tail eps (length di) E St)) as (y & Qy & By & Cy).
      exists y. split; [|split].
      + rewrite Q, Qy. cbn [rev]. rewrite <- app_assoc. cbn [app]. field. lra.
      + intros j. replace (y j - x j) with ((y j - shift x i c j) + (shift x i c j - x j)) by ring. eapply Rle_trans; [apply Rabs_triang|]. unfold n. cbn [length]. rewrite S_INR, Rmult_plus_distr_r, Rmult_1_l. apply Rplus_le_compat; [apply By|].
        eapply Rle_trans; [apply shift_close|]. apply Rabs_le. lra.
      + intros j Hj. rewrite Cy by (intros Z; apply Hj; right; exact Z). apply shift_close. intros ->. apply Hj. left. reflexivity.
    - assert (Fin : forall c, Rabs c <= INR n * E -> (forall j, Rabs (shift x i c j - x j) <= INR n * E) /\ (forall j, ~ In j (i :: di) -> shift x i c j = x j)).
      { intros c Hcc. split; [intros j; eapply Rle_trans; [apply shift_close|exact Hcc]|]. intros j Hj. apply shift_close. intros ->. apply Hj. left. reflexivity. }
      destruct (base_cases i di Rec) as [-> |[-> | ->]]; unfold n in *; cbn [length] in *; cbn [Nat.eqb].
      + destruct (mvt (fun s => D l (shift x i s)) (fun s => D (i :: l) (shift x i s)) (- e) e) as (c & Bc & Q); [intros t; apply partial_at, HD|]. unfold Rmin, Rmax in Bc. destruct (Rle_dec (- e) e); [|lra].
        exists (shift x i c). split; [rewrite Q; cbn [rev app]; field; lra|]. apply Fin. simpl INR. apply Rabs_le. lra.
      + destruct (second (fun s => D l (shift x i s)) (fun s => D (i :: l) (shift x i s)) (fun s => D (i :: i :: l) (shift x i s)) 0 e) as (c & Bc & Q); [lra|intros t; apply partial_at, HD|intros t; apply partial_at, HD|].
        rewrite Rplus_0_l, Rminus_0_l, shift_0 in Q. rewrite Rminus_0_r in Bc. exists (shift x i c). split; [rewrite Q; cbn [rev app]; field; lra|]. apply Fin. simpl INR. eapply Rle_trans; [exact Bc|]. lra.
      + assert (D1 : forall l t, is_derive (fun s => D l (shift x i s)) t (D (i :: l) (shift x i t))) by (intros l' t; apply partial_at, HD).
        set (p := fun s => D l (shift x i s)). set (p1 := fun s => D (i :: l) (shift x i s)).
        destruct (mvt (fun s => p (s + e) + p (s + - e) - 2 * p s) (fun s => p1 (s + e) + p1 (s + - e) - 2 * p1 s) (- e) e) as (c & Bc & Q).
        { intros t. apply (is_derive_minus (V := R_NormedModule)); [|apply (is_derive_scal p), D1]. apply (is_derive_plus (V := R_NormedModule)); apply shift_derive; intros; apply D1. }
        unfold Rmin, Rmax in Bc. destruct (Rle_dec (- e) e); [|lra].
        destruct (second p1 (fun s => D (i :: i :: l) (shift x i s)) (fun s => D (i :: i :: i :: l) (shift x i s)) c e) as (d & Bd & Q2); [lra|apply D1|apply D1|].
        exists (shift x i d). split.
        * cbn [rev app]. unfold p in Q. replace (e + e) with (2 * e) in Q by ring. replace (e + - e) with 0 in Q by ring. replace (- e + e) with 0 in Q by ring. replace (- e + - e) with (- (2 * e)) in Q by ring.
          change (p1 (c + e) + p1 (c + - e) - 2 * p1 c) with (p1 (c + e) + p1 (c - e) - 2 * p1 c) in Q. rewrite Q2 in Q.
          assert (Z : D l (shift x i (2 * e)) - 2 * D l (shift x i e) + 2 * D l (shift x i (- e)) - D l (shift x i (- (2 * e))) = e ^ 2 * D (i :: i :: i :: l) (shift x i d) * (e - - e)) by lra.
          rewrite Z. field. lra.
        * apply Fin. simpl INR. apply Rabs_le_between in Bd. apply Rabs_le. lra.
  Qed.

  (** * How far they are from the derivatives *)
  Lemma error M : forall di D x eps E, (forall l i, is_partial (D l) i (D (i :: l))) -> di <> [] -> steps_below eps (length di) E -> (forall l y, length l = (length di + 2)%nat -> Rabs (D l y) <= M) ->
    Rabs (fd (D []) x di eps - D (rev di) x) <= INR (length di) / 6 * M * E ^ 2.
  Proof.
    induction di as [|i di IH]; intros D x eps E HD Ne St HM; [congruence|]. clear Ne. cbn [fd]. set (n := length (i :: di)) in *. assert (n1 : (1 <= n)%nat) by (unfold n; cbn; lia).
    destruct (steps_head eps n E n1 St) as [P B]. set (e := the_step eps n) in *.
    assert (M0 : 0 <= M). { eapply Rle_trans; [apply Rabs_pos|]. apply (HM (repeat 0%nat (n + 2)) x). apply repeat_length. }
    assert (E2 : 0 <= e ^ 2 <= E ^ 2) by (split; [apply pow_le; lra|apply pow_incr; lra]). assert (ME : M * e ^ 2 <= M * E ^ 2) by (apply Rmult_le_compat_l; lra). assert (ME0 : 0 <= M * E ^ 2) by (apply Rmult_le_pos; lra).
    assert (D1 : forall l t, is_derive (fun s => D l (shift x i s)) t (D (i :: l) (shift x i t))) by (intros l' t; apply partial_at, HD).
    destruct (Nat.ltb 3 n || Nat.ltb 1 (length (nodup Nat.eq_dec (i :: di)))) eqn:Rec.
    - assert (Nd : di <> []) by (intros ->; discriminate Rec). set (p := fun l s => fd (D l) (shift x i s) di None).
      assert (C := central M (p []) (p [i]) (p [i; i]) (p [i; i; i]) e P). specialize (C (fun t => fd_derive _ i _ (HD _ _) di x t None) (fun t => fd_derive _ i _ (HD _ _) di x t None) (fun t => fd_derive _ i _ (HD _ _) di x t None)).
      assert (Bd : forall t, Rabs (p [i; i; i] t) <= M).
      { intros t. unfold p. destruct (mean_value D HD di [i; i; i] (shift x i t) None E Nd (steps_tail eps (length di) E St)) as (y & -> & _). apply HM. rewrite app_length, rev_length. unfold n. cbn [length]. lia. }
      specialize (C Bd). unfold p in C. rewrite shift_0 in C.
      pose proof (IH (fun l => D (l ++ [i])) x None E (fun l k => HD (l ++ [i]) k) Nd (steps_tail eps (length di) E St)) as R. cbn [app] in R.
      assert (R' : Rabs (fd (D [i]) x di None - D (rev di ++ [i]) x) <= INR (length di) / 6 * M * E ^ 2) by (apply R; intros l y L; apply HM; rewrite app_length, L; unfold n; cbn [length]; lia).
      cbn [rev]. set (A := fd (D []) (shift x i e) di None) in *. set (A' := fd (D []) (shift x i (- e)) di None) in *. set (G := fd (D [i]) x di None) in *.
      replace ((A - A') * (1 / e) / 2 - D (rev di ++ [i]) x) with ((A - A' - 2 * e * G) / (2 * e) + (G - D (rev di ++ [i]) x)) by (field; lra).
      eapply Rle_trans; [apply Rabs_triang|]. unfold n. cbn [length]. rewrite S_INR. replace ((INR (length di) + 1) / 6 * M * E ^ 2) with (M * E ^ 2 / 6 + INR (length di) / 6 * M * E ^ 2) by field. apply Rplus_le_compat; [|exact R'].
      unfold Rdiv at 1. rewrite Rabs_mult, (Rabs_right (/ (2 * e))) by (apply Rle_ge, Rlt_le, Rinv_0_lt_compat; lra). eapply Rle_trans; [apply Rmult_le_compat_r; [apply Rlt_le, Rinv_0_lt_compat; lra|exact C]|].
      replace (M * e ^ 3 / 3 * / (2 * e)) with (M * e ^ 2 / 6) by (field; lra). lra.
    - destruct (base_cases i di Rec) as [-> |[-> | ->]]; unfold n in *; cbn [length] in *; cbn [Nat.eqb rev app].
      + assert (C := central M _ _ _ _ e P (D1 []) (D1 [i]) (D1 [i; i]) (fun t => HM [i; i; i] (shift x i t) eq_refl)). cbv beta in C. rewrite shift_0 in C.
        replace ((D [] (shift x i e) - D [] (shift x i (- e))) * (1 / e) / 2 - D [i] x) with ((D [] (shift x i e) - D [] (shift x i (- e)) - 2 * e * D [i] x) * / (2 * e)) by (field; lra).
        rewrite Rabs_mult, (Rabs_right (/ (2 * e))) by (apply Rle_ge, Rlt_le, Rinv_0_lt_compat; lra). eapply Rle_trans; [apply Rmult_le_compat_r; [apply Rlt_le, Rinv_0_lt_compat; lra|exact C]|]. replace (M * e ^ 3 / 3 * / (2 * e)) with (M * e ^ 2 / 6) by (field; lra). simpl INR. lra.
      + assert (C := central2 M _ _ _ _ _ e (Rlt_le _ _ P) (D1 []) (D1 [i]) (D1 [i; i]) (D1 [i; i; i]) (fun t => HM [i; i; i; i] (shift x i t) eq_refl)). cbv beta in C. rewrite !shift_0 in C.
        replace ((D [] (shift x i e) + D [] (shift x i (- e)) - 2 * D [] x) * (1 / e) ^ 2 - D [i; i] x) with ((D [] (shift x i e) + D [] (shift x i (- e)) - 2 * D [] x - e ^ 2 * D [i; i] x) * / e ^ 2) by (field; lra).
        assert (I2 : 0 < / e ^ 2) by (apply Rinv_0_lt_compat, pow_lt; lra). rewrite Rabs_mult, (Rabs_right (/ e ^ 2)) by (apply Rle_ge, Rlt_le, I2). eapply Rle_trans; [apply Rmult_le_compat_r; [apply Rlt_le, I2|exact C]|]. replace (M * e ^ 4 / 12 * / e ^ 2) with (M * e ^ 2 / 12) by (field; lra). simpl INR. lra.
      + assert (C := central3 M _ _ _ _ _ _ e (Rlt_le _ _ P) (D1 []) (D1 [i]) (D1 [i; i]) (D1 [i; i; i]) (D1 [i; i; i; i]) (fun t => HM [i; i; i; i; i] (shift x i t) eq_refl)). cbv beta in C. rewrite !shift_0 in C.
        replace ((D [] (shift x i (2 * e)) - 2 * D [] (shift x i e) + 2 * D [] (shift x i (- e)) - D [] (shift x i (- (2 * e)))) * (1 / e) ^ 3 / 2 - D [i; i; i] x)
          with ((D [] (shift x i (2 * e)) - 2 * D [] (shift x i e) + 2 * D [] (shift x i (- e)) - D [] (shift x i (- (2 * e))) - 2 * e ^ 3 * D [i; i; i] x) * / (2 * e ^ 3)) by (field; lra).
        assert (I2 : 0 < / (2 * e ^ 3)) by (apply Rinv_0_lt_compat; apply Rmult_lt_0_compat; [lra|apply pow_lt; lra]). rewrite Rabs_mult, (Rabs_right (/ (2 * e ^ 3))) by (apply Rle_ge, Rlt_le, I2). eapply Rle_trans; [apply Rmult_le_compat_r; [apply Rlt_le, I2|exact C]|]. replace (M * e ^ 5 * (17 / 30) * / (2 * e ^ 3)) with (M * e ^ 2 * (17 / 60)) by (field; lra). simpl INR. lra.
  Qed.
End Rows.

(** * Theorems *)
(** The steps used by finitediff are at most E: the given eps for the first difference and the defaults for the others. *)
Notation steps_at_most := steps_below.
(** The finite difference is the true derivative at a point close to the input row. *)
Theorem C60_finitediff : forall machine_eps rows cols F f D di x eps E, row_wise rows F f -> derivatives f D -> di <> [] -> (forall i, In i di -> (i < cols)%nat) -> steps_at_most machine_eps eps (length di) E ->
  exists o, finitediff machine_eps cols F x di eps = Some o /\ forall r, (r < rows)%nat -> exists y, o r = D (rev di) y /\ (forall j, Rabs (y j - x r j) <= INR (length di) * E) /\ (forall j, ~ In j di -> y j = x r j).
Proof.
  intros me rows cols F f D di x eps E HF [<- HD] Ne Hi St. destruct (rows_fd me rows cols F (D []) di HF Hi Ne x eps) as (o & Q & Ho). exists o. split; [exact Q|]. intros r Hr.
  destruct (mean_value me D HD di [] (x r) eps E Ne St) as (y & Qy & A & B). exists y. rewrite app_nil_r in Qy. rewrite Ho by exact Hr. auto.
Qed.
(** With derivatives bounded by M two orders higher, the error is at most n/6 M E^2. *)
Theorem C60_error : forall machine_eps rows cols F f D di x eps E M, row_wise rows F f -> derivatives f D -> di <> [] -> (forall i, In i di -> (i < cols)%nat) -> steps_at_most machine_eps eps (length di) E ->
  (forall l y, length l = (length di + 2)%nat -> Rabs (D l y) <= M) ->
  exists o, finitediff machine_eps cols F x di eps = Some o /\ forall r, (r < rows)%nat -> Rabs (o r - D (rev di) (x r)) <= INR (length di) / 6 * M * E ^ 2.
Proof.
  intros me rows cols F f D di x eps E M HF [<- HD] Ne Hi St HM. destruct (rows_fd me rows cols F (D []) di HF Hi Ne x eps) as (o & Q & Ho). exists o. split; [exact Q|]. intros r Hr. rewrite Ho by exact Hr. apply (error me M); assumption.
Qed.
Lemma default_le me k n : 0 < me <= 1 -> (k <= n)%nat -> default_eps me k <= default_eps me n.
Proof.
  intros H L. unfold default_eps, Rpower. assert (Lg : ln me <= 0) by (rewrite <- ln_1; destruct (Req_dec me 1) as [-> |]; [right; reflexivity|left; apply ln_increasing; lra]).
  assert (I : 1 / (2 + INR n) <= 1 / (2 + INR k)). { apply Rmult_le_compat_l; [lra|]. apply Rinv_le_contravar; [pose proof (pos_INR k); lra|]. apply le_INR in L. lra. }
  assert (Q : 1 / (2 + INR k) * ln me <= 1 / (2 + INR n) * ln me) by nra. destruct Q as [Q|Q]; [left; apply exp_increasing, Q|right; f_equal; exact Q].
Qed.
(** With the default spacing for n indices the steps are at most machine_eps^(1/(2+n)), and the error at most n/6 M machine_eps^(2/(2+n)). *)
Theorem C60_default : forall machine_eps rows cols F f D di x M, 0 < machine_eps <= 1 -> row_wise rows F f -> derivatives f D -> di <> [] -> (forall i, In i di -> (i < cols)%nat) ->
  (forall l y, length l = (length di + 2)%nat -> Rabs (D l y) <= M) ->
  exists o, derivative machine_eps cols (fun _ x => x) FD 1 F x di = Some o /\ forall r, (r < rows)%nat -> Rabs (o r - D (rev di) (x r)) <= INR (length di) / 6 * M * Rpower machine_eps (2 / (2 + INR (length di))).
Proof.
  intros me rows cols F f D di x M Hm HF HD Ne Hi HM. unfold derivative. cbn [Nat.eqb].
  replace (Rpower me (2 / (2 + INR (length di)))) with (default_eps me (length di) ^ 2).
  - apply (C60_error me rows cols F f D di x None _ M HF HD Ne Hi); [|exact HM]. split; [exact I|]. intros k [_ Hk] _. apply default_le; assumption.
  - unfold default_eps. simpl. rewrite Rmult_1_r, <- Rpower_plus. f_equal. pose proof (pos_INR (length di)). field. lra.
Qed.

(** ** Automatic differentiation *)
Definition total (rows : nat) (y : outputs) : R := fold_right Rplus 0 (map y (seq 0 rows)).
(** torch.autograd.grad(y, x, ones) gives, for each entry of x, the derivative of the total of y, whenever that exists. *)
Definition grad_ok (rows : nat) (grad : (batch -> outputs) -> batch -> batch) : Prop := forall y x r j d, (r < rows)%nat ->
  is_derive (fun s => total rows (y (fun k => if Nat.eqb k r then shift (x k) j s else x k))) 0 d -> grad y x r j = d.
Lemma total_derive (l : list nat) (p : nat -> R -> R) r t d : NoDup l -> In r l -> is_derive (p r) t d -> (forall k, k <> r -> forall s, p k s = p k t) -> is_derive (fun s => fold_right Rplus 0 (map (fun k => p k s) l)) t d.
Proof.
  intros Nd I Hp Hc. induction l as [|a l IH]; [destruct I|]. inversion Nd as [|? ? Na Nd']; subst. cbn [map fold_right]. destruct (Nat.eq_dec a r) as [-> |Nr].
  - assert (Z : forall s, fold_right Rplus 0 (map (fun k => p k s) l) = fold_right Rplus 0 (map (fun k => p k t) l)).
    { intros s. f_equal. apply map_ext_in. intros k Ik. apply Hc. intros ->. contradiction. }
    apply (is_derive_ext (fun s => p r s + fold_right Rplus 0 (map (fun k => p k t) l))); [intros s; rewrite (Z s); reflexivity|]. replace d with (plus d zero) by (apply Rplus_0_r).
    apply (is_derive_plus (V := R_NormedModule)); [exact Hp|apply (is_derive_const (V := R_NormedModule))].
  - destruct I as [Q|I]; [congruence|]. apply (is_derive_ext (fun s => p a t + fold_right Rplus 0 (map (fun k => p k s) l))); [intros s; rewrite (Hc a Nr s); reflexivity|]. replace d with (plus zero d) by (apply Rplus_0_l).
    apply (is_derive_plus (V := R_NormedModule)); [apply (is_derive_const (V := R_NormedModule))|apply IH; assumption].
Qed.
(** Automatic differentiation gives, row by row, the derivative with respect to the indices. *)
Theorem C60_autograd : forall rows cols grad F f D di x, grad_ok rows grad -> row_wise rows F f -> derivatives f D -> (forall i, In i di -> (i < cols)%nat) ->
  exists o, torch_derivative cols grad F x di = Some o /\ forall r, (r < rows)%nat -> o r = D (rev di) (x r).
Proof.
  intros rows cols grad F f D di x Hg HF [<- HD] Hi.
  assert (G : forall l F, row_wise rows F (D l) -> exists o, torch_derivative cols grad F x di = Some o /\ forall r, (r < rows)%nat -> o r = D (rev di ++ l) (x r)).
  { clear F HF. induction di as [|i di IH]; intros l F HF; cbn [torch_derivative].
    - eexists. split; [reflexivity|]. intros r Hr. apply HF, Hr.
    - destruct (Nat.leb_spec cols i) as [L|_]; [specialize (Hi i (or_introl eq_refl)); lia|].
      destruct (IH (fun k Ik => Hi k (or_intror Ik)) (i :: l) (fun x r => grad F x r i)) as (o & Q & Ho); [|exists o; split; [exact Q|]; intros r Hr; rewrite Ho by exact Hr; cbn [rev]; rewrite <- app_assoc; reflexivity].
      intros z r Hr. apply Hg; [exact Hr|]. unfold total.
      apply (is_derive_ext (fun s => fold_right Rplus 0 (map (fun k => D l (if Nat.eqb k r then shift (z k) i s else z k)) (seq 0 rows)))).
      { intros s. f_equal. apply map_ext_in. intros k Ik. apply in_seq in Ik. rewrite HF by lia. reflexivity. }
      apply (total_derive (seq 0 rows) (fun k s => D l (if Nat.eqb k r then shift (z k) i s else z k)) r 0).
      + apply seq_NoDup.
      + apply in_seq. lia.
      + rewrite Nat.eqb_refl. apply HD.
      + intros k Hk s. destruct (Nat.eqb_spec k r); [contradiction|reflexivity]. }
  destruct (G [] F HF) as (o & Q & Ho). exists o. split; [exact Q|]. rewrite app_nil_r in Ho. exact Ho.
Qed.
(** The two modes agree up to the error of the differences. *)
Theorem C60_agree : forall machine_eps rows cols grad F f D di x M, 0 < machine_eps <= 1 -> grad_ok rows grad -> row_wise rows F f -> derivatives f D -> di <> [] -> (forall i, In i di -> (i < cols)%nat) ->
  (forall l y, length l = (length di + 2)%nat -> Rabs (D l y) <= M) ->
  exists fd ad, derivative machine_eps cols grad FD 1 F x di = Some fd /\ derivative machine_eps cols grad AD 1 F x di = Some ad /\
    forall r, (r < rows)%nat -> Rabs (fd r - ad r) <= INR (length di) / 6 * M * Rpower machine_eps (2 / (2 + INR (length di))).
Proof.
  intros me rows cols grad F f D di x M Hm Hg HF HD Ne Hi HM. destruct (C60_default me rows cols F f D di x M Hm HF HD Ne Hi HM) as (a & Qa & Ha). destruct (C60_autograd rows cols grad F f D di x Hg HF HD Hi) as (b & Qb & Hb).
  exists a, b. split; [exact Qa|]. split; [exact Qb|]. intros r Hr. rewrite Hb by exact Hr. apply Ha, Hr.
Qed.
(** What is refused: several outputs, an index beyond the inputs, and, for differences only, no index at all. *)
Theorem C60_refused : forall machine_eps cols grad F x di,
  (forall mode out, out <> 1%nat -> derivative machine_eps cols grad mode out F x di = None) /\
  (forall mode i, In i di -> (cols <= i)%nat -> derivative machine_eps cols grad mode 1 F x di = None) /\
  derivative machine_eps cols grad FD 1 F x [] = None /\ derivative machine_eps cols grad AD 1 F x [] = Some (F x).
Proof.
  intros me cols grad F x di. split; [|split; [|split; reflexivity]].
  - intros mode out H. unfold derivative. destruct (Nat.eqb_spec out 1); [contradiction|reflexivity].
  - intros mode i I L. unfold derivative. cbn [Nat.eqb]. destruct mode.
    + assert (G : forall di x eps, In i di -> finitediff me cols F x di eps = None).
      { clear - L. induction di as [|a di IH]; intros x eps I; [destruct I|]. cbn [finitediff]. destruct (Nat.leb_spec cols a) as [|La]; [reflexivity|]. destruct I as [-> |I]; [lia|].
        destruct (_ || _) eqn:Rec; [rewrite (IH _ None I); reflexivity|]. exfalso. destruct (base_cases a di Rec) as [-> |[-> | ->]]; cbn in I; intuition lia. }
      apply G, I.
    + assert (G : forall di F x, In i di -> torch_derivative cols grad F x di = None).
      { clear - L. induction di as [|a di IH]; intros F x I; [destruct I|]. cbn [torch_derivative]. destruct (Nat.leb_spec cols a) as [|La]; [reflexivity|]. destruct I as [-> |I]; [lia|]. apply IH, I. }
      apply G, I.
Qed.

(** The spacing given by the caller is used for the first difference only: the result for two indices is not the difference quotient with that spacing. *)
Theorem C60_eps_refuted : forall machine_eps, 0 < machine_eps <= 1 -> exists (f : point -> R) (x : batch) (e : R) o, 0 < e /\ finitediff machine_eps 2 (fun x r => f (x r)) x [0%nat; 1%nat] (Some e) = Some o /\
  o 0%nat <> ((f (shift (shift (x 0%nat) 0 e) 1 e) - f (shift (shift (x 0%nat) 0 e) 1 (- e))) / (2 * e) - (f (shift (shift (x 0%nat) 0 (- e)) 1 e) - f (shift (shift (x 0%nat) 0 (- e)) 1 (- e))) / (2 * e)) / (2 * e).
Proof.
  intros me Hm. exists (fun x => x 0%nat * x 1%nat ^ 3), (fun _ _ => 0), 2.
  destruct (rows_fd me 1 2 (fun x r => (fun x : point => x 0%nat * x 1%nat ^ 3) (x r)) (fun x => x 0%nat * x 1%nat ^ 3) [0%nat; 1%nat]) with (x := fun _ _ : nat => 0) (eps := Some 2) as (o & Q & Ho).
  { intros x r _. reflexivity. } { intros i [<-|[<-|[]]]; lia. } { discriminate. }
  exists o. split; [lra|]. split; [exact Q|]. rewrite Ho by lia. cbn -[pow default_eps]. unfold shift. cbn -[pow default_eps].
  assert (D1 : 0 < default_eps me 1 <= 1). { split; [apply default_pos|]. unfold default_eps, Rpower. apply (Rle_trans _ (exp 0)); [|rewrite exp_0; lra]. assert (Lg : ln me <= 0) by (rewrite <- ln_1; destruct (Req_dec me 1) as [-> |]; [right; reflexivity|left; apply ln_increasing; lra]).
    assert (A : 1 / (2 + INR 1) * ln me <= 0) by (simpl; nra). destruct A as [A|A]; [left; apply exp_increasing, A|right; f_equal; exact A]. }
  set (d := default_eps me 1) in *. intros Z.
  assert (Z' : d ^ 2 = 4). { transitivity (((0 + 2) * (0 + d) ^ 3 - (0 + 2) * (0 + - d) ^ 3) * (1 / d) / 2 / 2); [field; lra|]. 
    match type of Z with ?a = ?b => assert (A : a = d ^ 2) by (field; lra); assert (B : b = 4) by field end. rewrite A in Z. rewrite B in Z. rewrite <- Z. field. lra. }
  assert (d ^ 2 <= 1) by (simpl; nra). lra.
Qed.

(** ** Sampling *)
Lemma sum_app l m : fold_right Rplus 0 (l ++ m) = fold_right Rplus 0 l + fold_right Rplus 0 m.
Proof. induction l as [|a l IH]; cbn; [ring|]. rewrite IH. ring. Qed.
Lemma repeat_sum (l : list R) n : fold_right Rplus 0 (concat (repeat l n)) = INR n * fold_right Rplus 0 l /\ length (concat (repeat l n)) = (n * length l)%nat.
Proof.
  induction n as [|n [IH1 IH2]]; [cbn; split; [ring|reflexivity]|]. cbn [repeat concat]. rewrite sum_app, app_length, IH1, IH2, S_INR. split; [ring|cbn; lia].
Qed.
(** finitediff_sampling is the difference quotient for the one random number drawn: neither eps nor the number of samples has any influence. *)
Theorem C60_sampling : forall f size x val eps n, (0 < size)%nat -> (0 < n)%nat ->
  finitediff_sampling f size x val eps n = mean (map (fun k => (f (x + val) k - f (x - val) k) / (2 * val)) (seq 0 size)).
Proof.
  intros f size x val eps n Hs Hn. unfold finitediff_sampling. cbv zeta. cbn [flat_map]. rewrite app_nil_r. set (q := map _ (seq 0 size)).
  assert (R : map (fun _ : nat => q) (seq 0 n) = repeat q n). { clear. generalize 0%nat. induction n as [|n IH]; intros a; [reflexivity|]. cbn. rewrite IH. reflexivity. }
  rewrite R. unfold mean. destruct (repeat_sum q n) as [A B]. rewrite A, B, mult_INR. assert (L : length q = size) by (unfold q; rewrite map_length, seq_length; reflexivity). rewrite L. field. split; apply not_0_INR; lia.
Qed.
(** So it need not be close to the derivative however small eps is: for t^3 at 0, whose derivative is 0, it is the square of the number drawn. *)
Theorem C60_sampling_refuted : exists f, is_derive (fun t => f t 0%nat) 0 0 /\ forall val eps n, 0 < val < 1 -> (0 < n)%nat -> finitediff_sampling f 1 0 val eps n = val ^ 2.
Proof.
  exists (fun t _ => t ^ 3). split; [auto_derive; [exact I|ring]|]. intros val eps n Hv Hn. rewrite C60_sampling by lia. unfold mean. cbn [map seq fold_right length INR]. field. lra.
Qed.

(** * Cases *)
(** A two-input model, sin(x + 2 y), and all its derivatives. *)
Definition wave_c (i : nat) : R := match i with 0%nat => 1 | 1%nat => 2 | _ => 0 end.
Definition wave_D (l : list nat) (x : point) : R := fold_right Rmult 1 (map wave_c l) * sin (x 0%nat + 2 * x 1%nat + INR (length l) * (PI / 2)).
Lemma wave_ok : derivatives (fun x => sin (x 0%nat + 2 * x 1%nat)) wave_D.
Proof.
  split; [apply functional_extensionality; intros x; unfold wave_D; cbn; rewrite Rmult_1_l; f_equal; ring|]. intros l i x. unfold wave_D. cbn [map fold_right length]. rewrite S_INR.
  apply (is_derive_ext (fun s => fold_right Rmult 1 (map wave_c l) * sin (x 0%nat + 2 * x 1%nat + wave_c i * s + INR (length l) * (PI / 2)))).
  { intros s. req. unfold shift. destruct i as [|[|i]]; cbn [Nat.eqb wave_c]; apply Rmult_eq_compat_l; apply (f_equal sin); ring. }
  auto_derive; [exact I|]. rewrite Rmult_0_r, Rplus_0_r. replace (x 0%nat + 2 * x 1%nat + (INR (length l) + 1) * (PI / 2)) with (PI / 2 + (x 0%nat + 2 * x 1%nat + INR (length l) * (PI / 2))) by field. rewrite <- cos_sin. ring.
Qed.
Lemma wave_bound l y : length l = (2 + 2)%nat -> Rabs (wave_D l y) <= 16.
Proof.
  intros L. unfold wave_D. rewrite Rabs_mult. assert (S : Rabs (sin (y 0%nat + 2 * y 1%nat + INR (length l) * (PI / 2))) <= 1) by (apply Rabs_le; pose proof (SIN_bound (y 0%nat + 2 * y 1%nat + INR (length l) * (PI / 2))); lra).
  assert (C : forall l, Rabs (fold_right Rmult 1 (map wave_c l)) <= 2 ^ length l).
  { clear. induction l as [|a l IH]; cbn [map fold_right length pow]; [rewrite Rabs_R1; lra|]. rewrite Rabs_mult. apply Rmult_le_compat; try apply Rabs_pos; [|exact IH]. unfold wave_c. destruct a as [|[|a]]; rewrite Rabs_right; lra. }
  specialize (C l). rewrite L in C. assert (P16 : 2 ^ (2 + 2)%nat = 16) by (simpl; lra). rewrite P16 in C. pose proof (Rabs_pos (fold_right Rmult 1 (map wave_c l))). pose proof (Rabs_pos (sin (y 0%nat + 2 * y 1%nat + INR (length l) * (PI / 2)))). nra.
Qed.
Lemma grad_exists rows : grad_ok rows (fun y x r j => Derive (fun s => total rows (y (fun k => if Nat.eqb k r then shift (x k) j s else x k))) 0).
Proof. intros y x r j d _ H. apply is_derive_unique, H. Qed.
(** The mixed derivative of the two-input model on a batch of three rows: the modes agree to 16/3 of the square root of the machine precision. *)
Example C60_case : forall machine_eps x, 0 < machine_eps <= 1 -> exists grad fd ad, derivative machine_eps 2 grad FD 1 (fun x r => sin (x r 0%nat + 2 * x r 1%nat)) x [0%nat; 1%nat] = Some fd /\
  derivative machine_eps 2 grad AD 1 (fun x r => sin (x r 0%nat + 2 * x r 1%nat)) x [0%nat; 1%nat] = Some ad /\ forall r, (r < 3)%nat -> Rabs (fd r - ad r) <= 16 / 3 * Rpower machine_eps (1 / 2).
Proof.
  intros me x Hm. exists (fun y x r j => Derive (fun s : R => total 3 (y (fun k => if Nat.eqb k r then shift (x k) j s else x k))) 0).
  destruct (C60_agree me 3 2 _ (fun x r => sin (x r 0%nat + 2 * x r 1%nat)) (fun x => sin (x 0%nat + 2 * x 1%nat)) wave_D [0%nat; 1%nat] x 16 Hm (grad_exists 3)) as (a & b & Qa & Qb & H).
  { intros z r _. reflexivity. } { exact wave_ok. } { discriminate. } { intros i [<-|[<-|[]]]; lia. } { exact wave_bound. }
  exists a, b. split; [exact Qa|]. split; [exact Qb|]. intros r Hr. eapply Rle_trans; [apply H, Hr|]. right. cbn [length]. replace (INR 2) with 2 by (simpl; lra). replace (2 / (2 + 2)) with (1 / 2) by field. field.
Qed.

Print Assumptions C60_finitediff. Print Assumptions C60_error. Print Assumptions C60_default. Print Assumptions C60_autograd. Print Assumptions C60_agree. Print Assumptions C60_refused.
Print Assumptions C60_eps_refuted. Print Assumptions C60_sampling. Print Assumptions C60_sampling_refuted.
