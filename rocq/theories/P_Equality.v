(** C70: what it means that two blocks, registers or circuits compare equal. *)
From Coq Require Import String Reals List Arith Bool Lia Lra FunctionalExtensionality Permutation.
From Coquelicot Require Import Coquelicot.
From Coq Require Import List.
From Verif Require Import S_Ops M_QubitSupport M_Block S_Den L_Ops L_Den M_BlockOps M_Convert M_Register L_Gates L_PauliExp L_Diag P_Qft P_States M_Equality.
Import ListNotations.
Open Scope R_scope.

(** * Specification *)
(** The expressions of a block's parameters. *)
Fixpoint exprs (b : block) : list expr :=
  match b with
  | BRot _ _ e => [e]
  | BU _ x y z => [x; y; z]
  | BCtrl _ b | BPCtrl _ b => exprs b
  | BScale b e => e :: exprs b
  | BChain bs | BKron bs | BAdd bs => flat_map exprs bs
  | BEvo g t => t :: exprs g
  | _ => []
  end.
(** No parameter that one block uses by itself occurs inside a larger expression of the other. *)
Definition apart (a b : block) : Prop :=
  forall s e, (In (EVar s) (exprs a) /\ In e (exprs b)) \/ (In (EVar s) (exprs b) /\ In e (exprs a)) -> In s (vars e) -> e = EVar s.
(** Two blocks that denote different operators for some values of the parameters. *)
Definition different (a b : block) : Prop := ~ (forall rho, den rho a = den rho b).
Definition disjoint (a b : block) : Prop := forall q, In q (qubits a) -> In q (qubits b) -> False.
Definition all (P : block -> Prop) (l : list block) : Prop := fold_right (fun b k => P b /\ k) True l.
(** Blocks for which [==] is faithful: no projectors, number operators, matrices or evolutions; the parts of products and sums
    are not themselves composite; the terms of a sum denote pairwise different operators. *)
Fixpoint comparable (b : block) : Prop :=
  match b with
  | BPrim (PN _) _ => False
  | BPrim _ _ | BRot _ _ _ | BU _ _ _ _ | BSwap _ _ | BCSwap _ _ _ => True
  | BProj _ _ _ | BMat _ _ | BEvo _ _ => False
  | BCtrl _ x | BPCtrl _ x => match x with BPrim (PN _) _ => False | BPrim _ _ | BRot _ _ _ => True | _ => False end
  | BScale x _ => comparable x
  | BChain bs => fold_right (fun x k => comparable x /\ k) True bs
  | BKron bs => fold_right (fun x k => (comparable x /\ composite x = false /\ qubits x <> []) /\ k) True bs /\ ForallOrdPairs disjoint bs
  | BAdd bs => fold_right (fun x k => (comparable x /\ composite x = false) /\ k) True bs /\ ForallOrdPairs different bs
  end.
(** No U gate anywhere (of the generator of an evolution only the qubits are looked at). *)
Fixpoint no_u (b : block) : bool :=
  match b with
  | BU _ _ _ _ => false
  | BCtrl _ x | BPCtrl _ x | BScale x _ => no_u x
  | BChain bs | BKron bs | BAdd bs => forallb no_u bs
  | _ => true
  end.
(** The blocks found by going down through composite blocks only. *)
Fixpoint reach (b : block) : list block :=
  match b with BChain bs | BKron bs | BAdd bs => flat_map (fun c => c :: reach c) bs | _ => [] end.

Lemma fold_and {P : block -> Prop} l : fold_right (fun x k => P x /\ k) True l <-> forall x, In x l -> P x.
Proof. induction l as [|a l IH]; simpl; [tauto|]. rewrite IH. split; [intros [H K] x [<-|I]; auto|intros H; split; [|intros]; apply H; auto]. Qed.
Lemma bsize_pos b : (1 <= bsize b)%nat.
Proof. destruct b; simpl; lia. Qed.
Lemma bsize_in x l : In x l -> (bsize x <= list_sum (map bsize l))%nat.
Proof. induction l as [|a l IH]; simpl; [tauto|]. intros [->|I]; [lia|]. specialize (IH I). lia. Qed.
Lemma parts_size x o : In x (parts o) -> (bsize x < bsize o)%nat.
Proof. destruct o; cbn [parts bsize]; try contradiction; intros I; apply bsize_in in I; lia. Qed.

Section Equality.
  Variable set_iter : list nat -> list nat.
  Variable sym_eq deeper : expr -> expr -> bool.
  Notation beq_body := (beq_body set_iter sym_eq deeper).
  Notation beqf := (beqf set_iter sym_eq deeper).
  Notation hasf := (hasf set_iter sym_eq deeper).
  Notation beq := (beq set_iter sym_eq deeper).
  Notation has := (has set_iter sym_eq deeper).
  Notation expr_eq := (expr_eq sym_eq).
  Notation expr_equals := (expr_equals sym_eq deeper).

  Lemma search_ext f h f' h' x l : (forall c, In c l -> f c x = f' c x /\ h c x = h' c x) -> search f h x l = search f' h' x l.
  Proof.
    induction l as [|c l IH]; intros H; cbn [search]; [reflexivity|]. destruct (H c (or_introl eq_refl)) as [-> ->]. rewrite IH by (intros; apply H; right; assumption). reflexivity.
  Qed.
  Lemma body_ext f h f' h' a b : (forall x y, (bsize x + bsize y < bsize a + bsize b)%nat -> f x y = f' x y /\ h x y = h' x y) -> beq_body f h a b = beq_body f' h' a b.
  Proof.
    intros H. destruct a, b; try reflexivity; cbn [M_Equality.beq_body].
    - destruct (H a b) as [-> _]; [cbn [bsize]; lia|reflexivity].
    - destruct (H a b) as [-> _]; [cbn [bsize]; lia|reflexivity].
    - destruct (H a b) as [-> _]; [cbn [bsize]; lia|reflexivity].
    - destruct (Nat.eqb _ _); [|reflexivity]. f_equal. apply map_ext_in. intros [x y] I. cbn [fst snd]. apply H.
      pose proof (in_combine_l _ _ _ _ I) as I1. pose proof (in_combine_r _ _ _ _ I) as I2. apply bsize_in in I1, I2. cbn [bsize]. lia.
    - destruct (Nat.eqb _ _); [|reflexivity]. f_equal. apply map_ext_in. intros x I. apply H. apply bsize_in in I. cbn [bsize]. lia.
    - destruct (Nat.eqb _ _); [|reflexivity]. f_equal. apply map_ext_in. intros x I. apply H. apply bsize_in in I. cbn [bsize]. lia.
  Qed.
  Lemma fuel_step n : forall a b, (bsize a + bsize b <= n)%nat -> beqf (S n) a b = beqf n a b /\ hasf (S n) a b = hasf n a b.
  Proof.
    induction n as [|n IH]; intros a b H; [pose proof (bsize_pos a); lia|]. split.
    - change (beqf (S (S n)) a b) with (beq_body (beqf (S n)) (hasf (S n)) a b). change (beqf (S n) a b) with (beq_body (beqf n) (hasf n) a b).
      apply body_ext. intros x y L. apply IH. lia.
    - change (hasf (S (S n)) a b) with (search (beqf (S n)) (hasf (S n)) b (parts a)). change (hasf (S n) a b) with (search (beqf n) (hasf n) b (parts a)).
      apply search_ext. intros c I. apply parts_size in I. apply IH. lia.
  Qed.
  Lemma fuel n a b : (bsize a + bsize b <= n)%nat -> beqf n a b = beq a b /\ hasf n a b = has a b.
  Proof.
    intros H. replace n with ((n - (bsize a + bsize b)) + (bsize a + bsize b))%nat by lia. generalize (n - (bsize a + bsize b))%nat as k.
    induction k as [|k IH]; [split; reflexivity|]. change (S k + (bsize a + bsize b))%nat with (S (k + (bsize a + bsize b))). destruct (fuel_step (k + (bsize a + bsize b)) a b) as [E1 E2]; [lia|]. rewrite E1, E2. exact IH.
  Qed.
  (** Comparison and containment are the recursive methods of the code. *)
  Theorem C70_unfold : forall a b, beq a b = beq_body beq has a b /\ has a b = search beq has b (parts a).
  Proof.
    intros a b. destruct (fuel_step (bsize a + bsize b) a b) as [E1 E2]; [lia|]. split.
    - unfold M_Equality.beq at 1. rewrite <- E1. change (M_Equality.beqf set_iter sym_eq deeper (S (bsize a + bsize b)) a b) with (beq_body (beqf (bsize a + bsize b)) (hasf (bsize a + bsize b)) a b).
      apply body_ext. intros x y L. apply fuel. lia.
    - unfold M_Equality.has at 1. rewrite <- E2. change (M_Equality.hasf set_iter sym_eq deeper (S (bsize a + bsize b)) a b) with (search (beqf (bsize a + bsize b)) (hasf (bsize a + bsize b)) b (parts a)).
      apply search_ext. intros x I. apply parts_size in I. apply fuel. lia.
  Qed.
  Lemma beq_eq a b : beq a b = beq_body beq has a b.
  Proof. apply C70_unfold. Qed.
  Lemma has_eq a b : has a b = search beq has b (parts a).
  Proof. apply C70_unfold. Qed.

  Lemma of_bool_yes b : of_bool b = Yes <-> b = true.
  Proof. destruct b; cbn; split; congruence. Qed.
  Lemma call_yes l : call l = Yes <-> forall c, In c l -> c = Yes.
  Proof.
    induction l as [|c l IH]; cbn [call In]; [split; [intros _ c []|reflexivity]|]. split.
    - intros H. destruct c; [|destruct (call l); discriminate|discriminate]. destruct (call l) eqn:E; try discriminate. intros d [<-|I]; [reflexivity|]. apply IH; [reflexivity|exact I].
    - intros H. rewrite (H c (or_introl eq_refl)). rewrite (proj2 IH); [reflexivity|]. intros d I. apply H. right. exact I.
  Qed.
  Lemma cand_yes a b : cand a b = Yes <-> a = Yes /\ b = Yes.
  Proof. destruct a; cbn; split; intuition congruence. Qed.
  Lemma support_eqb_true s t : support_eqb s t = true <-> s = t.
  Proof. destruct s, t; cbn; try (split; congruence). destruct (list_eq_dec _ _ _); split; congruence. Qed.
  Lemma search_found x l : search beq has x l = Yes -> exists c, In c l /\ ((composite c = true /\ has c x = Yes) \/ beq c x = Yes).
  Proof.
    induction l as [|c l IH]; cbn [search]; [discriminate|]. intros H. destruct (composite c) eqn:Ec.
    - destruct (has c x) eqn:Eh; try discriminate; [exists c; split; [left; reflexivity|left; auto]|].
      destruct (beq c x) eqn:Eb; try discriminate; [exists c; split; [left; reflexivity|right; exact Eb]|]. destruct (IH H) as (d & I & D). exists d. split; [right; exact I|exact D].
    - destruct (beq c x) eqn:Eb; try discriminate; [exists c; split; [left; reflexivity|right; exact Eb]|]. destruct (IH H) as (d & I & D). exists d. split; [right; exact I|exact D].
  Qed.

  (** ** Faithfulness *)
  Hypothesis sym_sound : forall a b, sym_eq a b = true -> forall rho, ev rho a = ev rho b.
  Hypothesis deeper_sound : forall a b, deeper a b = true -> forall rho, ev rho a = ev rho b.

  Lemma expr_eq_sound a b : (forall s, a = EVar s -> In s (vars b) -> b = EVar s) -> expr_eq a b = true -> forall rho, ev rho a = ev rho b.
  Proof.
    intros A H rho. assert (V : forall s, a = EVar s -> In s (vars b) -> ev rho a = ev rho b) by (intros s E I; rewrite (A s E I), E; reflexivity).
    assert (W : (exists s, a = EVar s) \/ (forall s, a <> EVar s)) by (destruct a; try (right; congruence); left; eauto).
    destruct W as [[s ->]|W].
    - apply (V s eq_refl). destruct b; cbn [M_Equality.expr_eq] in H; try (apply existsb_exists in H as (y & I & E); apply String.eqb_eq in E; subst; exact I).
      apply String.eqb_eq in H. subst. left. reflexivity.
    - apply sym_sound. destruct a; try (exfalso; eapply W; reflexivity); destruct b; cbn [M_Equality.expr_eq] in H; try discriminate; exact H.
  Qed.
  Lemma expr_equals_sound a b : (forall s, a = EVar s -> In s (vars b) -> b = EVar s) -> expr_equals a b = true -> forall rho, ev rho a = ev rho b.
  Proof. intros A H. unfold M_Equality.expr_equals in H. apply orb_prop in H as [H|H]; [apply expr_eq_sound; assumption|apply deeper_sound; exact H]. Qed.

  Lemma match_up {A} (R : A -> A -> Prop) : forall xs ys, length xs = length ys -> (forall x, In x xs -> exists y, In y ys /\ R x y) ->
    ForallOrdPairs (fun x x' => forall y, R x y -> R x' y -> False) xs -> exists zs, Permutation ys zs /\ Forall2 R xs zs.
  Proof.
    induction xs as [|x xs IH]; intros ys L E P; destruct ys as [|y0 ys0]; try discriminate; [exists []; split; constructor|].
    destruct (E x (or_introl eq_refl)) as (y & I & Rxy). apply in_split in I as (l1 & l2 & E2). rewrite E2 in *. inversion P as [|? ? Px Pxs]; subst.
    destruct (IH (l1 ++ l2)) as (zs & Pz & Fz).
    - rewrite app_length in *. cbn [length] in L. lia.
    - intros x' I'. destruct (E x' (or_intror I')) as (y' & Iy & R'). exists y'. split; [|exact R']. apply in_app_iff in Iy as [Iy|[<-|Iy]]; [apply in_app_iff; left; exact Iy| |apply in_app_iff; right; exact Iy].
      exfalso. rewrite Forall_forall in Px. exact (Px x' I' y Rxy R').
    - exact Pxs.
    - exists (y :: zs). split; [|constructor; assumption]. etransitivity; [symmetry; apply Permutation_middle|]. constructor. exact Pz.
  Qed.
  Lemma dsum_perm rho l l' : Permutation l l' -> fold_right (fun b k => addop (den rho b) k) zeroop l = fold_right (fun b k => addop (den rho b) k) zeroop l'.
  Proof.
    induction 1 as [|x l l' P IH|x y l|l l' l'' P1 IH1 P2 IH2]; cbn [fold_right]; [reflexivity|rewrite IH; reflexivity| |congruence].
    rewrite <- !addop_assoc, (addop_comm (den rho y) (den rho x)). reflexivity.
  Qed.
  Lemma dprod_seqs rho l : fold_right (fun b k => seqop (den rho b) k) idop l = seqs (map (den rho) l).
  Proof. induction l as [|x l IH]; cbn [fold_right map seqs]; [reflexivity|]. rewrite IH. reflexivity. Qed.
  Lemma dprod_perm rho l l' : Permutation l l' -> ForallOrdPairs disjoint l -> fold_right (fun b k => seqop (den rho b) k) idop l = fold_right (fun b k => seqop (den rho b) k) idop l'.
  Proof.
    intros P D. rewrite !dprod_seqs. apply seqs_perm; [apply Permutation_map; exact P|]. intros A B IA IB. apply in_map_iff in IA as (a & <- & Ia). apply in_map_iff in IB as (b & <- & Ib).
    destruct (ForallOrdPairs_In D a b Ia Ib) as [->|[H|H]]; [reflexivity|apply den_comm; exact H|symmetry; apply den_comm; exact H].
  Qed.
  Lemma dprod_F2 rho l l' : Forall2 (fun x y => forall rho, den rho x = den rho y) l l' -> fold_right (fun b k => seqop (den rho b) k) idop l = fold_right (fun b k => seqop (den rho b) k) idop l'.
  Proof. induction 1 as [|x y l l' E F IH]; cbn [fold_right]; [reflexivity|]. rewrite IH, (E rho). reflexivity. Qed.
  Lemma dsum_F2 rho l l' : Forall2 (fun x y => forall rho, den rho x = den rho y) l l' -> fold_right (fun b k => addop (den rho b) k) zeroop l = fold_right (fun b k => addop (den rho b) k) zeroop l'.
  Proof. induction 1 as [|x y l l' E F IH]; cbn [fold_right]; [reflexivity|]. rewrite IH, (E rho). reflexivity. Qed.

  Lemma apart_sub a b x y : apart a b -> incl (exprs x) (exprs a) -> incl (exprs y) (exprs b) -> apart x y.
  Proof. intros A I J s e [[H K]|[H K]]; apply A; [left|right]; split; auto. Qed.
  Lemma apart_sym a b : apart a b -> apart b a.
  Proof. intros A s e H. apply A. tauto. Qed.
  Lemma incl_part x l : In x l -> incl (exprs x) (flat_map exprs l).
  Proof. intros I e H. apply in_flat_map. eauto. Qed.
  Lemma prim_class_inj p p' : prim_class p = prim_class p' -> p = p' \/ exists s s', p = PN s /\ p' = PN s'.
  Proof. destruct p, p'; cbn; intros E; try discriminate E; auto. right. eauto. Qed.
  Lemma rot_class_inj r r' : rot_class r = rot_class r' -> r = r'.
  Proof. destruct r, r'; cbn; intros E; try discriminate E; reflexivity. Qed.

  Definition agree (a b : block) : Prop := (forall rho, den rho a = den rho b) /\ (forall q, In q (qubits a) <-> In q (qubits b)).
  Lemma agree_sym a b : agree a b -> agree b a.
  Proof. intros [H K]. split; intros; [symmetry; apply H|symmetry; apply K]. Qed.

  Lemma same_local l l' : support_eqb (SLocal l) (SLocal l') = true -> l = l'.
  Proof. intros H. apply support_eqb_true in H. congruence. Qed.

  Lemma sound_n n : forall a b, (bsize a + bsize b <= n)%nat -> comparable a -> comparable b -> apart a b -> beq a b = Yes -> agree a b.
  Proof.
    induction n as [|n IH]; intros a b L Ca Cb Ap H; [pose proof (bsize_pos a); lia|]. rewrite beq_eq in H.
    assert (Sub : forall x y, (bsize x + bsize y <= n)%nat -> incl (exprs x) (exprs a) -> incl (exprs y) (exprs b) -> comparable x -> comparable y -> beq x y = Yes -> agree x y).
    { intros x y Lx I J Cx Cy E. apply IH; try assumption. eapply apart_sub; eassumption. }
    destruct a as [p q|k br qs|r q e|q x y z|u v|c u v|cs a|cs a|a e|xs|xs|xs|m qs|g t]; destruct b as [p' q'|k' br' qs'|r' q' e'|q' x' y' z'|u' v'|c' u' v'|cs' b|cs' b|b e'|ys|ys|ys|m' qs'|g' t']; try discriminate H; cbn [M_Equality.beq_body] in H.
    - apply of_bool_yes, andb_prop in H as [Hc Hs]. apply Nat.eqb_eq, prim_class_inj in Hc. apply same_local in Hs. injection Hs as <-.
      destruct Hc as [->|(s & s' & -> & ->)]; [split; intros; reflexivity|contradiction Ca].
    - contradiction Ca.
    - apply of_bool_yes, andb_prop in H as [Hc H]. apply andb_prop in H as [Hs He]. apply Nat.eqb_eq, rot_class_inj in Hc. apply same_local in Hs. injection Hs as <-. subst r'. split; [|intros; reflexivity].
      intros rho. cbn [den]. unfold ang. rewrite (expr_equals_sound e e'); [reflexivity| |exact He]. intros s -> I. apply (Ap s e'); [left; split; left; reflexivity|exact I].
    - destruct (same_support _ _ _); discriminate H.
    - apply of_bool_yes in H. apply same_local in H. injection H as <- <-. split; intros; reflexivity.
    - apply of_bool_yes, andb_prop in H as [H _]. apply same_local in H. injection H as <- <- <-. split; intros; reflexivity.
    - apply cand_yes in H as [Hs H]. apply of_bool_yes in Hs. apply same_local in Hs.
      assert (A : agree a b). { apply Sub; [cbn [bsize] in L; lia|apply incl_refl|apply incl_refl| | |exact H]; [destruct a as [[]| | | | | | | | | | | | |]|destruct b as [[]| | | | | | | | | | | | |]]; try contradiction; exact Logic.I. }
      assert (cs = cs'). { destruct a as [[]| | | | | | | | | | | | |]; try contradiction; destruct b as [[]| | | | | | | | | | | | |]; try contradiction; cbn [bsup locals] in Hs; apply app_inj_tail in Hs as [Hs _]; exact Hs. }
      subst cs'. destruct A as [A B]. split; [intros rho; cbn [den]; rewrite A; reflexivity|]. intros w. cbn [qubits]. rewrite !in_app_iff, B. reflexivity.
    - apply cand_yes in H as [Hs H]. apply of_bool_yes in Hs. apply same_local in Hs.
      assert (A : agree a b). { apply Sub; [cbn [bsize] in L; lia|apply incl_refl|apply incl_refl| | |exact H]; [destruct a as [[]| | | | | | | | | | | | |]|destruct b as [[]| | | | | | | | | | | | |]]; try contradiction; exact Logic.I. }
      assert (cs = cs'). { destruct a as [[]| | | | | | | | | | | | |]; try contradiction; destruct b as [[]| | | | | | | | | | | | |]; try contradiction; cbn [bsup locals] in Hs; apply app_inj_tail in Hs as [Hs _]; exact Hs. }
      subst cs'. destruct A as [A B]. split; [intros rho; cbn [den]; rewrite A; reflexivity|]. intros w. cbn [qubits]. rewrite !in_app_iff, B. reflexivity.
    - apply cand_yes in H as [H He]. apply of_bool_yes in He.
      assert (A : agree a b). { apply Sub; [cbn [bsize] in L; lia|cbn [exprs]; apply incl_tl, incl_refl|cbn [exprs]; apply incl_tl, incl_refl|exact Ca|exact Cb|exact H]. }
      destruct A as [A B]. split; [|exact B]. intros rho. cbn [den]. rewrite A. rewrite (expr_eq_sound e e'); [reflexivity| |exact He]. intros s -> I. apply (Ap s e'); [left; split; left; reflexivity|exact I].
    - destruct (Nat.eqb (length xs) (length ys)) eqn:El; [|discriminate H]. apply Nat.eqb_eq in El. rewrite call_yes in H. cbn [comparable] in Ca, Cb. rewrite fold_and in Ca, Cb.
      assert (F : Forall2 agree xs ys).
      { assert (G : forall x y, In (x, y) (combine xs ys) -> agree x y).
        { intros x y I. pose proof (in_combine_l _ _ _ _ I) as I1. pose proof (in_combine_r _ _ _ _ I) as I2. apply Sub; [|apply incl_part; exact I1|apply incl_part; exact I2|apply Ca; exact I1|apply Cb; exact I2|].
          - apply bsize_in in I1, I2. cbn [bsize] in L. lia.
          - apply H. apply in_map_iff. exists (x, y). split; [reflexivity|exact I]. }
        clear - El G. revert ys El G. induction xs as [|x xs IHx]; intros [|y ys] El G; try discriminate El; constructor; [apply G; left; reflexivity|]. apply IHx; [injection El as El; exact El|]. intros; apply G; right; assumption. }
      split.
      + intros rho. cbn [den]. apply dprod_F2. clear - F. induction F as [|x y xs ys [A _] F IHF]; constructor; assumption.
      + intros w. cbn [qubits]. clear - F. induction F as [|x y xs ys [_ A] F IHF]; cbn [flat_map]; [reflexivity|]. rewrite !in_app_iff, A, IHF. reflexivity.
    - destruct (Nat.eqb (length xs) (length ys)) eqn:El; [|discriminate H]. apply Nat.eqb_eq in El. rewrite call_yes in H. cbn [comparable] in Ca, Cb. destruct Ca as [Ca Da], Cb as [Cb Db]. rewrite fold_and in Ca, Cb.
      destruct (match_up agree xs ys El) as (zs & Pz & Fz).
      + intros x Ix. assert (Hx : has (BKron ys) x = Yes) by (apply H; apply in_map_iff; eauto). rewrite has_eq in Hx. cbn [parts] in Hx. apply search_found in Hx as (c & Ic & [[Hc _]|Hc]); [destruct (Cb c Ic) as (_ & N & _); congruence|].
        exists c. split; [exact Ic|]. apply agree_sym. apply IH; [| | | |exact Hc].
        * apply bsize_in in Ix, Ic. cbn [bsize] in L. lia.
        * apply Cb. exact Ic.
        * apply Ca. exact Ix.
        * apply apart_sym. eapply apart_sub; [exact Ap|apply incl_part; exact Ix|apply incl_part; exact Ic].
      + clear - Ca Da. induction Da as [|x l Fx Dl IHl]; constructor.
        * rewrite Forall_forall in *. intros x' I' y [_ A] [_ B]. destruct (Ca x (or_introl eq_refl)) as (_ & _ & N). destruct (qubits x) as [|w r] eqn:Eq; [congruence|].
          apply (Fx x' I' w); [rewrite Eq; left; reflexivity|]. apply B, A. left. reflexivity.
        * apply IHl. intros; apply Ca; right; assumption.
      + split.
        * intros rho. cbn [den]. rewrite (dprod_perm rho ys zs Pz Db). apply dprod_F2. clear - Fz. induction Fz as [|x y xs ys [A _] F IHF]; constructor; assumption.
        * intros w. cbn [qubits]. transitivity (In w (flat_map qubits zs)).
          -- clear - Fz. induction Fz as [|x y xs ys [_ A] F IHF]; cbn [flat_map]; [reflexivity|]. rewrite !in_app_iff, A, IHF. reflexivity.
          -- rewrite !in_flat_map. split; intros (x & I & J); exists x; (split; [eapply Permutation_in; [|exact I]; (exact Pz || (symmetry; exact Pz))|exact J]).
    - destruct (Nat.eqb (length xs) (length ys)) eqn:El; [|discriminate H]. apply Nat.eqb_eq in El. rewrite call_yes in H. cbn [comparable] in Ca, Cb. destruct Ca as [Ca Da], Cb as [Cb Db]. rewrite fold_and in Ca, Cb.
      destruct (match_up agree xs ys El) as (zs & Pz & Fz).
      + intros x Ix. assert (Hx : has (BAdd ys) x = Yes) by (apply H; apply in_map_iff; eauto). rewrite has_eq in Hx. cbn [parts] in Hx. apply search_found in Hx as (c & Ic & [[Hc _]|Hc]); [destruct (Cb c Ic) as (_ & N); congruence|].
        exists c. split; [exact Ic|]. apply agree_sym. apply IH; [| | | |exact Hc].
        * apply bsize_in in Ix, Ic. cbn [bsize] in L. lia.
        * apply Cb. exact Ic.
        * apply Ca. exact Ix.
        * apply apart_sym. eapply apart_sub; [exact Ap|apply incl_part; exact Ix|apply incl_part; exact Ic].
      + clear - Da. induction Da as [|x l Fx Dl IHl]; constructor; [|exact IHl]. rewrite Forall_forall in *. intros x' I' y [A _] [B _]. apply (Fx x' I'). intros rho. rewrite A, B. reflexivity.
      + split.
        * intros rho. cbn [den]. rewrite (dsum_perm rho ys zs Pz). apply dsum_F2. clear - Fz. induction Fz as [|x y xs ys [A _] F IHF]; constructor; assumption.
        * intros w. cbn [qubits]. transitivity (In w (flat_map qubits zs)).
          -- clear - Fz. induction Fz as [|x y xs ys [_ A] F IHF]; cbn [flat_map]; [reflexivity|]. rewrite !in_app_iff, A, IHF. reflexivity.
          -- rewrite !in_flat_map. split; intros (x & I & J); exists x; (split; [eapply Permutation_in; [|exact I]; (exact Pz || (symmetry; exact Pz))|exact J]).
    - contradiction Ca.
    - contradiction Ca.
  Qed.

  (** Blocks that compare equal denote the same operator, for all values of the parameters. *)
  Theorem C70_sound : forall a b, comparable a -> comparable b -> apart a b -> beq a b = Yes -> forall rho, den rho a = den rho b.
  Proof. intros a b Ca Cb Ap H. exact (proj1 (sound_n _ a b (Nat.le_refl _) Ca Cb Ap H)). Qed.
  (** ** What compares equal *)
  Hypothesis sym_refl : forall a, sym_eq a a = true.
  Lemma expr_eq_refl e : expr_eq e e = true.
  Proof. destruct e; cbn [M_Equality.expr_eq]; try apply sym_refl. apply String.eqb_refl. Qed.
  Lemma expr_equals_refl e : expr_equals e e = true.
  Proof. unfold M_Equality.expr_equals. rewrite expr_eq_refl. reflexivity. Qed.
  Lemma same_refl a : same_support set_iter a a = true.
  Proof. apply support_eqb_true. reflexivity. Qed.

  Lemma call_raise l : call l = Raise <-> In Raise l.
  Proof.
    induction l as [|c l IH]; cbn [call In]; [split; [discriminate|tauto]|]. destruct c.
    - rewrite <- IH. destruct (call l); split; intros; try tauto; try discriminate; destruct H; congruence.
    - rewrite <- IH. destruct (call l); split; intros; try tauto; try discriminate; destruct H; congruence.
    - tauto.
  Qed.
  Lemma search_raise x l : search beq has x l = Raise -> exists c, In c l /\ ((composite c = true /\ has c x = Raise) \/ beq c x = Raise).
  Proof.
    induction l as [|c l IH]; cbn [search]; [discriminate|]. intros H. destruct (composite c) eqn:Ec.
    - destruct (has c x) eqn:Eh; try discriminate; [|exists c; split; [left; reflexivity|left; auto]].
      destruct (beq c x) eqn:Eb; try discriminate; [|exists c; split; [left; reflexivity|right; exact Eb]]. destruct (IH H) as (d & I & D). exists d. split; [right; exact I|exact D].
    - destruct (beq c x) eqn:Eb; try discriminate; [|exists c; split; [left; reflexivity|right; exact Eb]]. destruct (IH H) as (d & I & D). exists d. split; [right; exact I|exact D].
  Qed.
  Lemma no_u_parts b x : no_u b = true -> In x (parts b) -> no_u x = true.
  Proof. destruct b; cbn [no_u parts]; try contradiction; intros H I; exact (proj1 (forallb_forall _ _) H x I). Qed.
  Lemma total_n n : forall a b, (bsize a + bsize b <= n)%nat -> no_u a = true \/ no_u b = true -> beq a b <> Raise /\ has a b <> Raise.
  Proof.
    induction n as [|n IH]; intros a b L U; [pose proof (bsize_pos a); lia|]. split.
    - rewrite beq_eq. intros H.
      destruct a as [p q|k br qs|r q e|q x y z|u v|c u v|cs a|cs a|a e|xs|xs|xs|m qs|g t]; destruct b as [p' q'|k' br' qs'|r' q' e'|q' x' y' z'|u' v'|c' u' v'|cs' b|cs' b|b e'|ys|ys|ys|m' qs'|g' t']; try discriminate H; cbn [M_Equality.beq_body] in H; cbn [bsize no_u] in L, U.
      + destruct (Nat.eqb _ _ && _); discriminate H.
      + destruct (same_support _ _ _); discriminate H.
      + destruct (Nat.eqb _ _ && _); discriminate H.
      + destruct U; discriminate.
      + destruct (same_support _ _ _); discriminate H.
      + destruct (same_support _ _ _ && _); discriminate H.
      + destruct (same_support _ _ _); [|discriminate H]. cbn [of_bool cand] in H. exact (proj1 (IH a b ltac:(lia) U) H).
      + destruct (same_support _ _ _); [|discriminate H]. cbn [of_bool cand] in H. exact (proj1 (IH a b ltac:(lia) U) H).
      + destruct (beq a b) eqn:E; cbn [cand] in H; [destruct (M_Equality.expr_eq _ _ _); discriminate H|discriminate H|]. exact (proj1 (IH a b ltac:(lia) U) E).
      + destruct (Nat.eqb (length xs) (length ys)); [|discriminate H]. apply call_raise, in_map_iff in H as ([x y] & E & I). cbn [fst snd] in E.
        pose proof (in_combine_l _ _ _ _ I) as I1. pose proof (in_combine_r _ _ _ _ I) as I2. refine (proj1 (IH x y _ _) E); [apply bsize_in in I1, I2; lia|].
        destruct U as [U|U]; [left|right]; exact (proj1 (forallb_forall _ _) U _ ltac:(eassumption)).
      + destruct (Nat.eqb (length xs) (length ys)); [|discriminate H]. apply call_raise, in_map_iff in H as (x & E & I). refine (proj2 (IH (BKron ys) x _ _) E); [apply bsize_in in I; cbn [bsize]; lia|].
        destruct U as [U|U]; [right; exact (proj1 (forallb_forall _ _) U _ I)|left; exact U].
      + destruct (Nat.eqb (length xs) (length ys)); [|discriminate H]. apply call_raise, in_map_iff in H as (x & E & I). refine (proj2 (IH (BAdd ys) x _ _) E); [apply bsize_in in I; cbn [bsize]; lia|].
        destruct U as [U|U]; [right; exact (proj1 (forallb_forall _ _) U _ I)|left; exact U].
      + destruct (same_support _ _ _); discriminate H.
      + destruct (same_support _ _ _ && _); discriminate H.
    - rewrite has_eq. intros H. apply search_raise in H as (c & I & D).
      assert (Uc : no_u c = true \/ no_u b = true) by (destruct U as [U|U]; [left; exact (no_u_parts a c U I)|right; exact U]).
      apply parts_size in I. destruct (IH c b ltac:(lia) Uc) as [E1 E2]. destruct D as [[_ D]|D]; contradiction.
  Qed.
  (** Comparing two blocks never fails when one of them has no U gate. *)
  Theorem C70_total : forall a b, no_u a = true \/ no_u b = true -> beq a b <> Raise /\ has a b <> Raise.
  Proof. intros a b. exact (total_n _ a b (Nat.le_refl _)). Qed.

  (** A block contains exactly what one of the blocks reached through its composite parts is equal to. *)
  Theorem C70_contains : forall o x, no_u o = true \/ no_u x = true -> (has o x = Yes <-> exists p, In p (reach o) /\ beq p x = Yes).
  Proof.
    intros o x U. split.
    - remember (bsize o) as n eqn:En. assert (L : (bsize o <= n)%nat) by lia. clear En. revert o U L. induction n as [|n IH]; intros o U L H; [pose proof (bsize_pos o); lia|].
      rewrite has_eq in H. apply search_found in H as (c & I & D).
      assert (R : forall p, p = c \/ In p (reach c) -> In p (reach o)).
      { intros p Hp. destruct o; cbn [parts] in I; try contradiction; cbn [reach]; apply in_flat_map; exists c; (split; [exact I|]); cbn [In]; destruct Hp; auto. }
      destruct D as [[_ D]|D]; [|exists c; split; [apply R; left; reflexivity|exact D]].
      destruct (IH c) as (p & Ip & E); [destruct U as [U|U]; [left; exact (no_u_parts _ _ U I)|right; exact U]|apply parts_size in I; lia|exact D|]. exists p. split; [apply R; right; exact Ip|exact E].
    - assert (F : forall l, (forall c, In c l -> no_u c = true \/ no_u x = true) -> (exists c, In c l /\ ((composite c = true /\ has c x = Yes) \/ beq c x = Yes)) -> search beq has x l = Yes).
      { intros l. clear o U. induction l as [|c l IH]; intros Ul (d & I & D); [contradiction|]. cbn [search].
        destruct (total_n _ c x (Nat.le_refl _) (Ul c (or_introl eq_refl))) as [T1 T2].
        destruct I as [<-|I].
        - destruct (composite c) eqn:Ec.
          + destruct (has c x) eqn:Eh; [reflexivity| |contradiction]. destruct D as [[_ D]|D]; [discriminate|]. rewrite D. reflexivity.
          + destruct D as [[D _]|D]; [discriminate|]. rewrite D. reflexivity.
        - destruct (if composite c then has c x else No) eqn:E; [reflexivity| |destruct (composite c); [contradiction|discriminate]].
          destruct (beq c x) eqn:Eb; [reflexivity| |contradiction]. apply IH; [intros; apply Ul; right; assumption|]. exists d. auto. }
      remember (bsize o) as n eqn:En. assert (L : (bsize o <= n)%nat) by lia. clear En. revert o U L. induction n as [|n IH]; intros o U L (p & I & E); [pose proof (bsize_pos o); lia|].
      rewrite has_eq. apply F; [intros c Ic; destruct U as [U|U]; [left; exact (no_u_parts _ _ U Ic)|right; exact U]|].
      assert (exists c, In c (parts o) /\ (p = c \/ In p (reach c))) as (c & Ic & Hp).
      { destruct o; cbn [reach] in I; try contradiction; apply in_flat_map in I as (c & Ic & I); exists c; (split; [exact Ic|]); cbn [In] in I; destruct I; auto. }
      exists c. split; [exact Ic|]. destruct Hp as [->|Hp]; [right; exact E|left]. split; [destruct c; try contradiction; reflexivity|].
      apply IH; [destruct U as [U|U]; [left; exact (no_u_parts _ _ U Ic)|right; exact U]|apply parts_size in Ic; lia|]. exists p. auto.
  Qed.

  (** Without U gates every block equals itself, *)
  Theorem C70_reflexive : forall b, no_u b = true -> beq b b = Yes.
  Proof.
    intros b. remember (bsize b) as n eqn:En. assert (L : (bsize b <= n)%nat) by lia. clear En. revert b L. induction n as [|n IH]; intros b L U; [pose proof (bsize_pos b); lia|].
    assert (P : forall o x, In x (parts o) -> (bsize x <= n)%nat -> no_u x = true -> has o x = Yes).
    { intros o x I Lx Ux. apply C70_contains; [right; exact Ux|]. exists x. split; [|apply IH; assumption]. destruct o; cbn [parts] in I; try contradiction; cbn [reach]; apply in_flat_map; exists x; (split; [exact I|left; reflexivity]). }
    rewrite beq_eq. destruct b as [p q|k br qs|r q e|q x y z|u v|c u v|cs a|cs a|a e|xs|xs|xs|m qs|g t]; cbn [M_Equality.beq_body bsize no_u] in *; rewrite ?same_refl, ?Nat.eqb_refl, ?expr_equals_refl, ?expr_eq_refl; try reflexivity.
    - discriminate U.
    - apply IH; [lia|exact U].
    - apply IH; [lia|exact U].
    - rewrite IH by (lia || exact U). reflexivity.
    - apply call_yes. intros c I. apply in_map_iff in I as ([x y] & <- & I). cbn [fst snd]. assert (x = y) as <-. { clear - I. induction xs as [|a xs IHx]; cbn in I; [contradiction|]. destruct I as [E|I]; [congruence|auto]. }
      apply in_combine_l in I. apply IH; [apply bsize_in in I; lia|exact (proj1 (forallb_forall _ _) U _ I)].
    - apply call_yes. intros c I. apply in_map_iff in I as (x & <- & I). apply P; [exact I|apply bsize_in in I; lia|exact (proj1 (forallb_forall _ _) U _ I)].
    - apply call_yes. intros c I. apply in_map_iff in I as (x & <- & I). apply P; [exact I|apply bsize_in in I; lia|exact (proj1 (forallb_forall _ _) U _ I)].
  Qed.
  (** and the order of the parts of a tensor product or of a sum does not matter. *)
  Theorem C70_order : forall xs ys, Permutation xs ys -> forallb no_u xs = true -> beq (BKron xs) (BKron ys) = Yes /\ beq (BAdd xs) (BAdd ys) = Yes.
  Proof.
    intros xs ys P U. rewrite !beq_eq. cbn [M_Equality.beq_body]. rewrite (Permutation_length P), Nat.eqb_refl.
    split; apply call_yes; intros c I; apply in_map_iff in I as (x & <- & I); (apply C70_contains; [right; exact (proj1 (forallb_forall _ _) U _ I)|]); exists x;
      (split; [cbn [reach]; apply in_flat_map; exists x; split; [exact (Permutation_in _ P I)|left; reflexivity]|apply C70_reflexive; exact (proj1 (forallb_forall _ _) U _ I)]).
  Qed.
  (** In a chain it does: chains are compared position by position. *)
  Theorem C70_chain : forall xs ys, beq (BChain xs) (BChain ys) = Yes <-> Forall2 (fun x y => beq x y = Yes) xs ys.
  Proof.
    intros xs ys. rewrite beq_eq. cbn [M_Equality.beq_body]. split.
    - destruct (Nat.eqb _ _) eqn:El; [|discriminate]. apply Nat.eqb_eq in El. rewrite call_yes. revert ys El. induction xs as [|x xs IH]; intros [|y ys] El H; try discriminate El; constructor.
      + apply H. left. reflexivity.
      + apply IH; [injection El as El; exact El|]. intros c I. apply H. right. exact I.
    - intros F. assert (El : length xs = length ys) by (induction F; cbn; congruence). rewrite El, Nat.eqb_refl. apply call_yes. induction F as [|x y xs ys E F IH]; [intros c []|]. intros c [<-|I]; [exact E|]. apply IH; [injection El as El; exact El|exact I].
  Qed.
  (** Gates: the same class on the same qubit (with the same angle, the same controls, the same factor). *)
  Theorem C70_gates : forall p q p' q', beq (BPrim p q) (BPrim p' q') = Yes <-> q = q' /\ (p = p' \/ exists s s', p = PN s /\ p' = PN s').
  Proof.
    intros. rewrite beq_eq. cbn [M_Equality.beq_body]. rewrite of_bool_yes, andb_true_iff, Nat.eqb_eq. split.
    - intros [Hc Hs]. apply same_local in Hs. injection Hs as <-. split; [reflexivity|]. apply prim_class_inj. exact Hc.
    - intros [<- [<-|(s & s' & -> & ->)]]; (split; [reflexivity|apply support_eqb_true; reflexivity]).
  Qed.
  Theorem C70_rotations : forall r q e r' q' e', beq (BRot r q e) (BRot r' q' e') = Yes <-> r = r' /\ q = q' /\ (expr_eq e e' = true \/ deeper e e' = true).
  Proof.
    intros. rewrite beq_eq. cbn [M_Equality.beq_body]. rewrite of_bool_yes, !andb_true_iff, Nat.eqb_eq. unfold M_Equality.expr_equals. rewrite orb_true_iff. split.
    - intros (Hc & Hs & He). apply same_local in Hs. injection Hs as <-. apply rot_class_inj in Hc. auto.
    - intros (<- & <- & He). split; [reflexivity|]. split; [apply support_eqb_true; reflexivity|exact He].
  Qed.
  Theorem C70_scaled : forall b e b' e', beq (BScale b e) (BScale b' e') = Yes <-> beq b b' = Yes /\ expr_eq e e' = true.
  Proof. intros. rewrite beq_eq. cbn [M_Equality.beq_body]. rewrite cand_yes, of_bool_yes. reflexivity. Qed.
  Theorem C70_controlled : forall cs q p cs' q' p', beq (BCtrl cs (BPrim p q)) (BCtrl cs' (BPrim p' q')) = Yes <-> cs = cs' /\ beq (BPrim p q) (BPrim p' q') = Yes.
  Proof.
    intros. rewrite (beq_eq (BCtrl _ _)). cbn [M_Equality.beq_body]. rewrite cand_yes, of_bool_yes. split.
    - intros [Hs H]. apply same_local in Hs. cbn [bsup locals] in Hs. apply app_inj_tail in Hs as [Hs _]. auto.
    - intros [<- H]. split; [|exact H]. apply C70_gates in H as [<- _]. apply support_eqb_true. reflexivity.
  Qed.

  (** ** Where equality is not faithful *)
  (** The generator of an evolution is not compared, only its qubits. *)
  Theorem C70_evolution_refuted : beq (BEvo (BPrim PZ 0) (ECst (RtoC PI))) (BEvo (BPrim (PN true) 0) (ECst (RtoC PI))) = Yes /\
    forall rho, den rho (BEvo (BPrim PZ 0) (ECst (RtoC PI))) <> den rho (BEvo (BPrim (PN true) 0) (ECst (RtoC PI))).
  Proof.
    split; [rewrite beq_eq; cbn [M_Equality.beq_body]; rewrite expr_equals_refl; reflexivity|].
    intros rho E. rewrite (evo_rdiag rho (BPrim PZ 0) _ _ (z_rdiag 0)), (evo_rdiag rho (BPrim (PN true) 0) _ _ (n_rdiag 0)) in E. apply (f_equal (fun F : Op => fst (F (fun _ => RtoC 1) (fun _ => false)))) in E.
    unfold diag, zs, b2r, ang, cis, RtoC, Cmult in E. cbn [ev fst snd] in E. rewrite !Rmult_1_r, !Rmult_0_r, !Ropp_0, cos_0, cos_neg, cos_PI in E. lra.
  Qed.
  (** Nor are the bit strings of a projector, the state of a number operator, or the entries of a matrix. *)
  Theorem C70_projector_refuted : forall q, beq (BPrim (PN true) q) (BPrim (PN false) q) = Yes /\ beq (BProj [true] [true] [q]) (BProj [false] [false] [q]) = Yes /\
    forall rho, den rho (BPrim (PN true) q) <> den rho (BPrim (PN false) q) /\ den rho (BProj [true] [true] [q]) <> den rho (BProj [false] [false] [q]).
  Proof.
    intros q. split; [apply C70_gates; split; [reflexivity|right; eauto]|]. split; [rewrite beq_eq; cbn [M_Equality.beq_body]; apply of_bool_yes, support_eqb_true; reflexivity|].
    intros rho. split; intros E; apply (f_equal (fun F : Op => fst (F (fun _ => RtoC 1) (fun _ => false)))) in E.
    - cbn [den] in E. rewrite !gate1_eq in E. cbn in E. lra.
    - cbn [den] in E. unfold gate, ketbra in E. cbn in E. lra.
  Qed.
  Theorem C70_matrix_refuted : (forall m m' qs, beq (BMat m qs) (BMat m' qs) = Yes) /\
    exists m m', forall rho q, den rho (BMat m [q]) <> den rho (BMat m' [q]).
  Proof.
    split; [intros; rewrite beq_eq; cbn [M_Equality.beq_body]; apply of_bool_yes, support_eqb_true; reflexivity|].
    exists (fun i j => if Nat.eqb i j then RtoC 1 else RtoC 0), (fun i j => if Nat.eqb i j then RtoC 0 else RtoC 1). intros rho q E.
    apply (f_equal (fun F : Op => fst (F (fun x => if x q then RtoC 1 else RtoC 0) (fun _ => false)))) in E. cbn [den] in E. unfold gate, nmat in E. cbn in E. unfold upd in E. rewrite !Nat.eqb_refl in E. cbn in E. lra.
  Qed.
  (** A parameter by itself equals every expression it occurs in, but not the other way round: RX(theta) == RX(2 theta), and
      RX(2 theta) != RX(theta). *)
  Theorem C70_parameter_refuted : forall q s, let twice := EMul (ECst (RtoC 2)) (EVar s) in
    beq (BRot RX_ q (EVar s)) (BRot RX_ q twice) = Yes /\ beq (BRot RX_ q twice) (BRot RX_ q (EVar s)) = No /\
    beq (BScale (BPrim PX q) (EVar s)) (BScale (BPrim PX q) twice) = Yes /\
    exists rho, den rho (BRot RX_ q (EVar s)) <> den rho (BRot RX_ q twice) /\ den rho (BScale (BPrim PX q) (EVar s)) <> den rho (BScale (BPrim PX q) twice).
  Proof.
    intros q s twice.
    assert (X : expr_eq (EVar s) twice = true) by (cbn; rewrite String.eqb_refl; reflexivity).
    split; [apply C70_rotations; auto|]. split.
    - destruct (beq (BRot RX_ q twice) (BRot RX_ q (EVar s))) eqn:E; [|reflexivity|exfalso; refine (proj1 (C70_total _ _ (or_introl _)) E); reflexivity].
      apply C70_rotations in E as (_ & _ & [E|E]); [discriminate E|]. exfalso. pose proof (deeper_sound _ _ E (fun _ => 1)) as D. apply (f_equal fst) in D. cbn in D. lra.
    - split; [apply C70_scaled; split; [apply C70_gates; auto|exact X]|]. exists (fun _ => PI). split; intros E; apply (f_equal (fun F : Op => fst (F (fun _ => RtoC 1) (fun _ => false)))) in E.
      + cbn [den] in E. rewrite !gate1_eq in E. unfold ang in E. cbn in E. rewrite cos_PI2 in E. replace ((2 * PI - 0 * 0) / 2) with PI in E by field. rewrite cos_PI in E. lra.
      + cbn [den] in E. unfold scaleop in E. rewrite !gate1_eq in E. cbn in E. pose proof PI_RGT_0. lra.
  Qed.
  (** Sums are compared as sets of terms: X + X equals X + Z, but X + Z does not equal X + X. *)
  Theorem C70_sum_refuted : let a := BAdd [BPrim PX 0; BPrim PX 0] in let b := BAdd [BPrim PX 0; BPrim PZ 0] in
    beq a b = Yes /\ beq b a = No /\ forall rho, den rho a <> den rho b.
  Proof.
    cbv zeta. split; [reflexivity|]. split; [reflexivity|]. intros rho E. apply (f_equal (fun F : Op => fst (F (fun x : asg => if x 0%nat then RtoC 1 else RtoC 0) (fun _ => false)))) in E.
    cbn [den fold_right] in E. unfold addop, zeroop in E. rewrite !gate1_eq in E. cbn in E. lra.
  Qed.
  (** Parts are also looked for inside the parts of the other product: X(0) and X(1) equals kron(kron(X(0), Z(2)), X(1)). *)
  Theorem C70_nested_refuted : let a := BKron [BPrim PX 0; BPrim PX 1] in let b := BKron [BKron [BPrim PX 0; BPrim PZ 2]; BPrim PX 1] in
    beq a b = Yes /\ beq b a = No /\ forall rho, den rho a <> den rho b.
  Proof.
    cbv zeta. split; [reflexivity|]. split; [reflexivity|]. intros rho E. apply (f_equal (fun F : Op => fst (F (fun _ => RtoC 1) (fun _ => true)))) in E.
    cbn [den fold_right] in E. unfold seqop, idop in E. rewrite !gate1_eq in E. cbn in E. lra.
  Qed.
  (** A U gate cannot be compared with a U gate on the same qubit, not even with itself; the same gate written as three rotations can. *)
  Theorem C70_u_refuted : forall q x y z, beq (BU q x y z) (BU q x y z) = Raise /\ beq (BChain [BU q x y z]) (BChain [BU q x y z]) = Raise /\ has (BChain [BU q x y z]) (BU q x y z) = Raise.
  Proof.
    intros. assert (E : beq (BU q x y z) (BU q x y z) = Raise) by (rewrite beq_eq; cbn [M_Equality.beq_body]; rewrite same_refl; reflexivity).
    split; [exact E|]. split.
    - rewrite beq_eq. cbn [M_Equality.beq_body length Nat.eqb combine map fst snd]. rewrite E. reflexivity.
    - rewrite has_eq. cbn [parts search composite]. rewrite E. reflexivity.
  Qed.
  (** A scaled part is not looked into: X(0) is in 2 X(0) by itself but not in the sum 2 X(0) + Z(1). *)
  Theorem C70_contains_refuted : has (BAdd [BScale (BPrim PX 0) (ECst (RtoC 2)); BPrim PZ 1]) (BPrim PX 0) = No /\
    has (BAdd [BChain [BPrim PX 0]; BPrim PZ 1]) (BPrim PX 0) = Yes.
  Proof. split; reflexivity. Qed.

  (** ** Registers and circuits *)
  Variable isomorphic : list nat * list (nat * nat) -> list nat * list (nat * nat) -> bool.
  Notation register_eq := (register_eq isomorphic).
  Lemma point_eqb_eq p q : point_eqb p q = true -> p = q.
  Proof. unfold point_eqb. destruct p, q. cbn [fst snd]. destruct (Req_EM_T _ _); [|discriminate]. destruct (Req_EM_T _ _); [|discriminate]. congruence. Qed.
  Lemma coord_in r i p : coord r i = Some p -> In (i, p) r.
  Proof. unfold coord. destruct (find _ r) as [e|] eqn:E; [|discriminate]. intros H. injection H as <-. apply find_some in E as [I J]. apply Nat.eqb_eq in J. subst i. destruct e. exact I. Qed.
  (** Equal circuits have equal blocks and registers of the same size with every qubit at the same place. *)
  Theorem C70_circuit : forall D (a b : block * qreg D), circuit_eq set_iter sym_eq deeper isomorphic a b = Yes ->
    beq (fst a) (fst b) = Yes /\ length (nodes (snd a)) = length (nodes (snd b)) /\ (forall i, coord (nodes (snd a)) i = coord (nodes (snd b)) i) /\
    isomorphic (support (nodes (snd a)), edges (snd a)) (support (nodes (snd b)), edges (snd b)) = true.
  Proof.
    intros D a b H. unfold circuit_eq, bne in H. destruct (M_Equality.beq _ _ _ (fst a) (fst b)) eqn:E; try discriminate H. destruct (M_Equality.register_eq _ _ _) eqn:R; [|discriminate H].
    unfold M_Equality.register_eq in R. apply andb_prop in R as [R Rn]. apply andb_prop in R as [Rc Ri]. apply Nat.eqb_eq in Rn. split; [reflexivity|]. split; [exact Rn|]. split; [|exact Ri].
    apply andb_prop in Rc as [R1 R2]. rewrite forallb_forall in R1, R2. intros i. destruct (coord (nodes (snd a)) i) as [p|] eqn:Ea.
    - specialize (R1 _ (coord_in _ _ _ Ea)). cbn [fst snd] in R1. destruct (coord (nodes (snd b)) i) as [p'|]; [|discriminate R1]. apply point_eqb_eq in R1. congruence.
    - destruct (coord (nodes (snd b)) i) as [p'|] eqn:Eb; [|reflexivity]. specialize (R2 _ (coord_in _ _ _ Eb)). cbn [fst snd] in R2. rewrite Ea in R2. discriminate R2.
  Qed.
  Theorem C70_circuit_reflexive : forall D (c : block * qreg D), no_u (fst c) = true -> NoDup (support (nodes (snd c))) -> (forall g, isomorphic g g = true) -> circuit_eq set_iter sym_eq deeper isomorphic c c = Yes.
  Proof.
    intros D c U N Iso. unfold circuit_eq, bne. rewrite C70_reflexive by exact U. unfold M_Equality.register_eq. rewrite Iso, Nat.eqb_refl.
    assert (S : same_coords (nodes (snd c)) (nodes (snd c)) = true); [|rewrite S; reflexivity].
    assert (F : forallb (fun e => match coord (nodes (snd c)) (fst e) with Some p => point_eqb (snd e) p | None => false end) (nodes (snd c)) = true); [|unfold same_coords; rewrite F; reflexivity].
    apply forallb_forall. intros [i p] I. cbn [fst snd]. unfold support in N. unfold coord. 
    assert (G : forall l, NoDup (map fst l) -> In (i, p) l -> find (fun e : nat * point => Nat.eqb (fst e) i) l = Some (i, p)).
    { clear. induction l as [|[j p'] l IH]; cbn [map find fst]; intros N I; [contradiction|]. inversion N as [|? ? Nj Nl]; subst. destruct I as [E|I].
      - injection E as -> ->. rewrite Nat.eqb_refl. reflexivity.
      - destruct (Nat.eqb_spec j i) as [->|Ne]; [|apply IH; assumption]. exfalso. apply Nj. apply (in_map fst) in I. exact I. }
    rewrite (G _ N I). cbn [snd]. unfold point_eqb. destruct (Req_EM_T (fst p) (fst p)); [|congruence]. destruct (Req_EM_T (snd p) (snd p)); [reflexivity|congruence].
  Qed.
  (** What a circuit contains: the blocks reached through its composite parts or, if it is a single gate, the blocks equal to the gate. *)
  Theorem C70_circuit_contains : forall b x, no_u b = true \/ no_u x = true ->
    (circuit_has set_iter sym_eq deeper b x = Yes <-> if composite b then exists p, In p (reach b) /\ beq p x = Yes else beq x b = Yes).
  Proof. intros b x U. unfold circuit_has. destruct (composite b); [apply C70_contains; exact U|reflexivity]. Qed.
  Theorem C70_circuit_contains_gate : forall b, composite b = false -> no_u b = true -> circuit_has set_iter sym_eq deeper b b = Yes.
  Proof. intros b C U. unfold circuit_has. rewrite C. apply C70_reflexive, U. Qed.
  (** A circuit with a U gate cannot be compared with itself: the comparison of the blocks raises, and nothing catches it. *)
  Theorem C70_circuit_u_refuted : forall D q x y z (r : qreg D), circuit_eq set_iter sym_eq deeper isomorphic (BU q x y z, r) (BU q x y z, r) = Raise /\
    bne set_iter sym_eq deeper (BU q x y z) (BU q x y z) = Raise /\ circuit_has set_iter sym_eq deeper (BU q x y z) (BU q x y z) = Raise.
  Proof.
    intros D q x y z r. destruct (C70_u_refuted q x y z) as (E & _). unfold circuit_eq, bne, circuit_has. cbn [fst composite]. rewrite E. repeat split; reflexivity.
  Qed.
  (** The edges only count up to a renaming of the qubits, and the device not at all: a register whose qubits 0 and 1 are connected
      equals the one, with the same places, whose qubits 1 and 2 are connected and whose device is another. *)
  Theorem C70_register_refuted : (forall g h, isomorphic g h = true <->
      exists f, Permutation (map f (fst g)) (fst h) /\ (forall i j, In i (fst g) -> In j (fst g) -> (In (i, j) (snd g) \/ In (j, i) (snd g) <-> In (f i, f j) (snd h) \/ In (f j, f i) (snd h)))) ->
    forall D (d d' : D), let at_ := [(0%nat, (0, 0)); (1%nat, (1, 0)); (2%nat, (2, 0))] in
    register_eq {| nodes := at_; edges := [(0, 1)]%nat; device := d |} {| nodes := at_; edges := [(1, 2)]%nat; device := d' |} = true.
  Proof.
    intros Iso D d d' at_. unfold M_Equality.register_eq. cbn [nodes edges]. 
    assert (S : same_coords at_ at_ = true). { unfold same_coords, at_, coord. cbn [forallb find Nat.eqb fst snd]. unfold point_eqb. cbn [fst snd]. repeat (destruct (Req_EM_T _ _); [|congruence]). reflexivity. }
    rewrite S, Nat.eqb_refl, andb_true_r, andb_true_l. apply Iso. exists (fun i => if Nat.eqb i 0 then 1%nat else if Nat.eqb i 1 then 2%nat else 0%nat). split.
    - cbn. apply perm_trans with [1; 0; 2]%nat; [repeat constructor|repeat constructor].
    - cbn. intros i j Hi Hj. destruct Hi as [<-|[<-|[<-|[]]]]; destruct Hj as [<-|[<-|[<-|[]]]]; cbn; intuition (congruence || auto).
  Qed.

  (** ** Parameters *)
  Lemma in_existsb s l : existsb (String.eqb s) l = true <-> In s l.
  Proof. rewrite existsb_exists. split; [intros (y & I & E); apply String.eqb_eq in E; subst; exact I|intros I; exists s; split; [exact I|apply String.eqb_refl]]. Qed.
  (** No factor of a scaled block has a parameter. *)
  Fixpoint plain_factors (b : block) : Prop :=
    match b with
    | BPCtrl _ x => plain_factors x
    | BScale x e => vars e = [] /\ plain_factors x
    | BChain bs | BKron bs | BAdd bs => fold_right (fun x k => plain_factors x /\ k) True bs
    | _ => True
    end.
  Lemma has_param_class s b : (if parametric_class b || composite b then has_param s b else false) = has_param s b.
  Proof. destruct b; reflexivity. Qed.
  (** A parameter found in a block is one of its parameters; every parameter is found, except in the factors of scaled blocks. *)
  Theorem C70_parameter_sound : forall s b, has_param s b = true -> In s (bparams b).
  Proof.
    intros s b. induction b as [p q|k br qs|r q e|q a b c|a b|c a b|cs b IH|cs b IH|b e IH|bs IH|bs IH|bs IH|m qs|g t IH] using block_ind'; cbn [has_param bparams]; try discriminate.
    - apply in_existsb.
    - rewrite !in_app_iff, !orb_true_iff, !in_existsb. tauto.
    - exact IH.
    - rewrite has_param_class. intros H. apply in_app_iff. right. auto.
    - rewrite existsb_exists. intros (x & I & H). rewrite has_param_class in H. apply in_flat_map. exists x. split; [exact I|]. rewrite Forall_forall in IH. apply IH; assumption.
    - rewrite existsb_exists. intros (x & I & H). rewrite has_param_class in H. apply in_flat_map. exists x. split; [exact I|]. rewrite Forall_forall in IH. apply IH; assumption.
    - rewrite existsb_exists. intros (x & I & H). rewrite has_param_class in H. apply in_flat_map. exists x. split; [exact I|]. rewrite Forall_forall in IH. apply IH; assumption.
    - rewrite in_app_iff, orb_true_iff, !in_existsb. tauto.
  Qed.
  Theorem C70_parameter_complete : forall s b, plain_factors b -> In s (bparams b) -> has_param s b = true.
  Proof.
    intros s b. induction b as [p q|k br qs|r q e|q a b c|a b|c a b|cs b IH|cs b IH|b e IH|bs IH|bs IH|bs IH|m qs|g t IH] using block_ind'; cbn [has_param bparams plain_factors]; try contradiction.
    - intros _. apply in_existsb.
    - rewrite !in_app_iff, !orb_true_iff, !in_existsb. tauto.
    - exact IH.
    - rewrite has_param_class. intros [-> P] I. auto.
    - rewrite fold_and, existsb_exists. intros P I. apply in_flat_map in I as (x & I & H). exists x. split; [exact I|]. rewrite has_param_class. rewrite Forall_forall in IH. auto.
    - rewrite fold_and, existsb_exists. intros P I. apply in_flat_map in I as (x & I & H). exists x. split; [exact I|]. rewrite has_param_class. rewrite Forall_forall in IH. auto.
    - rewrite fold_and, existsb_exists. intros P I. apply in_flat_map in I as (x & I & H). exists x. split; [exact I|]. rewrite has_param_class. rewrite Forall_forall in IH. auto.
    - intros _. rewrite in_app_iff, orb_true_iff, !in_existsb. tauto.
  Qed.
  (** A parameter is in a circuit exactly if it is one of the parameters of its block. *)
  Theorem C70_circuit_parameter : forall s b, circuit_has_param s b = true <-> In s (bparams b).
  Proof. intros s b. apply in_existsb. Qed.
  (** The factor of a scaled block is not searched: a parameter may be in a circuit and not in the circuit's block. *)
  Theorem C70_factor_refuted : forall s q, let b := BAdd [BScale (BPrim PX q) (EVar s); BPrim PZ q] in
    circuit_has_param s b = true /\ has_param s b = false /\ has_param s (BScale (BRot RX_ q (EVar s)) (ECst (RtoC 1))) = true.
  Proof. intros. split; [cbn; rewrite String.eqb_refl; reflexivity|]. split; [reflexivity|]. cbn. rewrite String.eqb_refl. reflexivity. Qed.

End Equality.

(** Two circuits written differently: the hypotheses of the soundness theorem hold and the comparison succeeds. *)
Definition ex_left : block := BChain [BKron [BPrim PH 0; BRot RX_ 1 (EVar "x")]; BCtrl [0%nat] (BPrim PX 1); BScale (BPrim PZ 2) (EMul (ECst (RtoC 2)) (EVar "y"))].
Definition ex_right : block := BChain [BKron [BRot RX_ 1 (EVar "x"); BPrim PH 0]; BCtrl [0%nat] (BPrim PX 1); BScale (BPrim PZ 2) (EMul (ECst (RtoC 2)) (EVar "y"))].
Example C70_witness : forall si se dp, se (EMul (ECst (RtoC 2)) (EVar "y")) (EMul (ECst (RtoC 2)) (EVar "y")) = true ->
  comparable ex_left /\ comparable ex_right /\ apart ex_left ex_right /\ no_u ex_left = true /\ beq si se dp ex_left ex_right = Yes.
Proof.
  intros si se dp H. split; [|split; [|split; [|split]]].
  - cbn. repeat split; try discriminate; repeat constructor. intros q [<-|[]] [E|[]]. discriminate E.
  - cbn. repeat split; try discriminate; repeat constructor. intros q [<-|[]] [E|[]]. discriminate E.
  - intros s e A. cbn in A. cbn. intuition subst; try discriminate; cbn in *; intuition congruence.
  - reflexivity.
  - cbn. rewrite H. reflexivity.
Qed.
Example C70_sum_witness : comparable (BAdd [BPrim PX 0; BPrim PZ 0]) /\ comparable (BAdd [BPrim PZ 0; BPrim PX 0]) /\ apart (BAdd [BPrim PX 0; BPrim PZ 0]) (BAdd [BPrim PZ 0; BPrim PX 0]).
Proof.
  assert (D : forall rho, den rho (BPrim PX 0) <> den rho (BPrim PZ 0)).
  { intros rho E. apply (f_equal (fun F : Op => fst (F (fun x : asg => if x 0%nat then RtoC 1 else RtoC 0) (fun _ => false)))) in E. cbn [den] in E. rewrite !gate1_eq in E. cbn in E. lra. }
  split; [|split].
  - cbn. split; [repeat split|]. repeat constructor. intros H. exact (D (fun _ => 0) (H _)).
  - cbn. split; [repeat split|]. repeat constructor. intros H. exact (D (fun _ => 0) (eq_sym (H _))).
  - intros s e [[[] _]|[[] _]].
Qed.

Print Assumptions C70_unfold.
Print Assumptions C70_sound.
Print Assumptions C70_total.
Print Assumptions C70_contains.
Print Assumptions C70_reflexive.
Print Assumptions C70_order.
Print Assumptions C70_chain.
Print Assumptions C70_gates.
Print Assumptions C70_rotations.
Print Assumptions C70_scaled.
Print Assumptions C70_controlled.
Print Assumptions C70_evolution_refuted.
Print Assumptions C70_projector_refuted.
Print Assumptions C70_matrix_refuted.
Print Assumptions C70_parameter_refuted.
Print Assumptions C70_sum_refuted.
Print Assumptions C70_nested_refuted.
Print Assumptions C70_u_refuted.
Print Assumptions C70_contains_refuted.
Print Assumptions C70_circuit.
Print Assumptions C70_circuit_reflexive.
Print Assumptions C70_register_refuted.
Print Assumptions C70_parameter_sound.
Print Assumptions C70_parameter_complete.
Print Assumptions C70_factor_refuted.
Print Assumptions C70_circuit_contains.
Print Assumptions C70_circuit_contains_gate.
Print Assumptions C70_circuit_u_refuted.
