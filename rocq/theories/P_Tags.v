(** C88: tags of blocks - how they are found, and what the transformations of blocks and the drawing of a circuit do with them. *)
From Coq Require Import String Reals List Arith Bool Lia Permutation.
From Coquelicot Require Import Coquelicot.
From Coq Require Import List.
From Verif Require Import S_Ops M_QubitSupport M_Block M_BlockOps M_Tensor M_Transpile M_Fill M_Tags.
Import ListNotations.

(** * Specification *)
(** [inside b p x]: [x] is reached from [b] by going, in each composite block, to the part with the next number of [p]. *)
Inductive inside : tblock -> list nat -> tblock -> Prop :=
| inside_here b : inside b [] b
| inside_part k bs t i c p x : nth_error bs i = Some c -> inside c p x -> inside (TComp k bs t) (i :: p) x.
(** The order of the places as one reads the block: a block before its parts, an earlier part before a later one. *)
Fixpoint before (p q : list nat) : Prop :=
  match p, q with
  | [], [] => False
  | [], _ :: _ => True
  | _ :: _, [] => False
  | i :: p', j :: q' => (i < j)%nat \/ (i = j /\ before p' q')
  end.
Inductive in_order : list (list nat) -> Prop :=
| in_order_nil : in_order []
| in_order_cons p l : (forall q, In q l -> before p q) -> in_order l -> in_order (p :: l).

Section Induction.
  Variable P : tblock -> Prop.
  Hypothesis HL : forall a t, P (TLeaf a t).
  Hypothesis HC : forall par cs b t, P b -> P (TCtrl par cs b t).
  Hypothesis HS : forall b e t, P b -> P (TScale b e t).
  Hypothesis HK : forall k bs t, Forall P bs -> P (TComp k bs t).
  Fixpoint tblock_ind' (b : tblock) : P b :=
    match b with
    | TLeaf a t => HL a t
    | TCtrl par cs b' t => HC par cs b' t (tblock_ind' b')
    | TScale b' e t => HS b' e t (tblock_ind' b')
    | TComp k bs t => HK k bs t ((fix go (l : list tblock) : Forall P l := match l with [] => Forall_nil _ | x :: r => Forall_cons _ (tblock_ind' x) (go r) end) bs)
    end.
End Induction.

Lemma has_tag_iff s b : has_tag s b = true <-> tag_of b = Some s.
Proof. unfold has_tag. destruct (tag_of b) as [t|]; [|split; discriminate]. rewrite String.eqb_eq. split; [intros ->; reflexivity|intros [= ->]; reflexivity]. Qed.

(** * Finding blocks *)
(** the places at which the blocks with the tag are found *)
Fixpoint places (s : string) (b : tblock) : list (list nat) :=
  (if has_tag s b then [[]] else []) ++
  match b with
  | TComp _ bs _ => (fix go (i : nat) (l : list tblock) := match l with [] => [] | c :: r => map (cons i) (places s c) ++ go (S i) r end) 0%nat bs
  | _ => []
  end.
Definition places_from (s : string) := fix go (i : nat) (l : list tblock) := match l with [] => [] | c :: r => map (cons i) (places s c) ++ go (S i) r end.

Lemma order_app l m : in_order l -> in_order m -> (forall p q, In p l -> In q m -> before p q) -> in_order (l ++ m).
Proof.
  induction l as [|p l IH]; intros HL HM H; [exact HM|]. inversion HL; subst. cbn. constructor.
  - intros q I. apply in_app_or in I as [I|I]; [auto|apply H; [left; reflexivity|exact I]].
  - apply IH; [assumption|assumption|]. intros p' q I J. apply H; [right; exact I|exact J].
Qed.
Lemma order_map i l : in_order l -> in_order (map (cons i) l).
Proof.
  induction 1 as [|p l H _ IH]; cbn; constructor; [|exact IH]. intros q I. apply in_map_iff in I as (q' & <- & I). cbn. right. split; [reflexivity|]. auto.
Qed.
Lemma places_from_ge s : forall l i p, In p (places_from s i l) -> exists j q, p = j :: q /\ (i <= j)%nat.
Proof.
  induction l as [|c r IH]; intros i p I; [contradiction|]. cbn [places_from] in I. apply in_app_or in I as [I|I].
  - apply in_map_iff in I as (q & <- & _). exists i, q. auto.
  - apply IH in I as (j & q & -> & L). exists j, q. split; [reflexivity|lia].
Qed.
Lemma places_order s b : in_order (places s b).
Proof.
  induction b as [a t|par cs b t IH|b e t IH|k bs t IH] using tblock_ind'; cbn [places];
    try (rewrite app_nil_r; match goal with |- in_order (if ?c then _ else _) => destruct c end; repeat constructor; intros q []).
  apply order_app.
  - match goal with |- in_order (if ?c then _ else _) => destruct c end; repeat constructor; intros q [].
  - change (in_order (places_from s 0 bs)). generalize 0%nat. induction IH as [|c r H _ IH']; intros i; cbn [places_from]; [constructor|].
    apply order_app; [apply order_map, H|apply IH'|]. intros p q I J. apply in_map_iff in I as (p' & <- & _).
    apply places_from_ge in J as (j & q' & -> & L). cbn. left. lia.
  - intros p q I J. match type of I with In p (if ?c then _ else _) => destruct c end; [|contradiction]. destruct I as [<-|[]].
    apply (places_from_ge s bs 0%nat) in J as (j & q' & -> & _). exact I.
Qed.
Lemma places_match s b : Forall2 (fun p x => inside b p x /\ tag_of x = Some s) (places s b) (get_blocks_by_tag s b).
Proof.
  assert (R : forall b, Forall2 (fun p x => inside b p x /\ tag_of x = Some s) (if has_tag s b then [[]] else []) (if has_tag s b then [b] else [])).
  { intros c. destruct (has_tag s c) eqn:E; constructor; [|constructor]. split; [constructor|]. apply has_tag_iff, E. }
  induction b as [a t|par cs b t IH|b e t IH|k bs t IH] using tblock_ind'; cbn [places get_blocks_by_tag]; try (rewrite !app_nil_r; apply R).
  apply Forall2_app; [apply R|]. change (Forall2 (fun p x => inside (TComp k bs t) p x /\ tag_of x = Some s) (places_from s 0 bs) (flat_map (get_blocks_by_tag s) bs)).
  assert (G : forall l i, Forall (fun b => Forall2 (fun p x => inside b p x /\ tag_of x = Some s) (places s b) (get_blocks_by_tag s b)) l ->
     (forall j, nth_error bs (i + j) = nth_error l j) -> Forall2 (fun p x => inside (TComp k bs t) p x /\ tag_of x = Some s) (places_from s i l) (flat_map (get_blocks_by_tag s) l)).
  { induction l as [|c r IHl]; intros i F N; [constructor|]. inversion F as [|? ? Fc Fr]; subst. cbn [places_from flat_map]. apply Forall2_app.
    - assert (Nc : nth_error bs i = Some c) by (transitivity (nth_error bs (i + 0)); [rewrite Nat.add_0_r; reflexivity|rewrite N; reflexivity]).
      clear - Fc Nc. induction Fc as [|p x lp lx [H1 H2] _ IH]; cbn; constructor; [|exact IH]. split; [|exact H2]. econstructor; eassumption.
    - apply IHl; [exact Fr|]. intros j. replace (S i + j)%nat with (i + S j)%nat by lia. rewrite N. reflexivity. }
  apply G; [exact IH|reflexivity].
Qed.
Lemma places_all s b p x : inside b p x -> tag_of x = Some s -> In p (places s b).
Proof.
  intros H T. induction H as [b|k bs t i c p x N H IH].
  - destruct b; cbn [places]; apply in_or_app; left; apply has_tag_iff in T; rewrite T; left; reflexivity.
  - cbn [places]. apply in_or_app. right. specialize (IH T). change (In (i :: p) (places_from s 0 bs)).
    assert (G : forall l i0 i1, nth_error l i1 = Some c -> In ((i0 + i1)%nat :: p) (places_from s i0 l)).
    { induction l as [|c' r IHl]; intros i0 [|i1] E; try discriminate E; cbn [places_from]; apply in_or_app.
      - injection E as ->. left. rewrite Nat.add_0_r. apply in_map, IH.
      - right. replace (i0 + S i1)%nat with (S i0 + i1)%nat by lia. apply IHl, E. }
    apply (G bs 0%nat i N).
Qed.
(** [get_blocks_by_tag] gives the blocks with the tag that the compositions contain, each once and in the order of reading. *)
Theorem C88_by_tag : forall s b, exists ps, in_order ps /\ Forall2 (fun p x => inside b p x /\ tag_of x = Some s) ps (get_blocks_by_tag s b)
  /\ forall p x, inside b p x -> tag_of x = Some s -> In p ps.
Proof. intros s b. exists (places s b). split; [apply places_order|]. split; [apply places_match|]. apply places_all. Qed.

(** * Renumbering the qubits *)
Lemma osequence_forall2 {A B} (f : A -> option B) : forall l ys, osequence (map f l) = Some ys -> Forall2 (fun x y => f x = Some y) l ys.
Proof.
  induction l as [|x l IH]; cbn; intros ys H; [injection H as <-; constructor|]. destruct (f x) as [y|] eqn:E; [|discriminate H]. cbn in H.
  destruct (osequence (map f l)) as [zs|] eqn:Z; [|discriminate H]. injection H as <-. constructor; [exact E|]. apply IH. reflexivity.
Qed.
Lemma tconstruct_some si k bs t b : tconstruct si k bs t = Some b -> b = TComp k bs t.
Proof. unfold tconstruct, omap. destruct (construct si k (map erase bs)); cbn; [intros [= <-]; reflexivity|discriminate]. Qed.
Lemma construct_some si k bs b : construct si k bs = Some b -> b = comp k bs.
Proof. destruct k; cbn; unfold mk_kron; [intros [= <-]; reflexivity| |intros [= <-]; reflexivity]. destruct bs; [discriminate|]. destruct (kron_check _ _ _); [intros [= <-]; reflexivity|discriminate]. Qed.
Lemma Forall2_flat_map {A B} (R : B -> B -> Prop) (f : A -> list B) l m : Forall2 (fun x y => Forall2 R (f x) (f y)) l m -> Forall2 R (flat_map f l) (flat_map f m).
Proof. induction 1; cbn; [constructor|]. apply Forall2_app; assumption. Qed.

(** The tags stay where they are when the qubits are renumbered: the blocks found afterwards are those found before, renumbered. *)
Theorem C88_reassign : forall si m s b b', treassign si m b = Some b' ->
  Forall2 (fun x y => treassign si m x = Some y) (get_blocks_by_tag s b) (get_blocks_by_tag s b').
Proof.
  intros si m s b. assert (R : forall b b', tag_of b' = tag_of b -> treassign si m b = Some b' -> Forall2 (fun x y => treassign si m x = Some y) (if has_tag s b then [b] else []) (if has_tag s b' then [b'] else [])).
  { intros c c' E H. unfold has_tag. rewrite E. destruct (tag_of c) as [u|]; [|constructor]. destruct (String.eqb u s); repeat constructor. exact H. }
  induction b as [a t|par cs b t IH|b e t IH|k bs t IH] using tblock_ind'; intros b' H; pose proof H as H0; cbn [treassign] in H.
  - unfold omap in H. destruct (reassign si m a); [|discriminate H]. injection H as <-. cbn [get_blocks_by_tag]. rewrite !app_nil_r. apply R; [reflexivity|exact H0].
  - destruct (osequence (map m cs)); [|discriminate H]. cbn in H. unfold omap in H. destruct (treassign si m b); [|discriminate H]. injection H as <-. cbn [get_blocks_by_tag]. rewrite !app_nil_r. apply R; [reflexivity|exact H0].
  - unfold omap in H. destruct (treassign si m b); [|discriminate H]. injection H as <-. cbn [get_blocks_by_tag]. rewrite !app_nil_r. apply R; [reflexivity|exact H0].
  - destruct (osequence (map (treassign si m) bs)) as [ys|] eqn:E; [|discriminate H]. cbn in H. apply tconstruct_some in H. subst b'. cbn [get_blocks_by_tag].
    apply Forall2_app; [apply R; [reflexivity|exact H0]|]. apply Forall2_flat_map. apply osequence_forall2 in E. clear H0. induction E as [|x y l l' Exy _ IHl]; [constructor|].
    inversion IH; subst. constructor; auto.
Qed.

(** * The dagger *)
(** the blocks whose dagger keeps the tag *)
Definition keeps (b : tblock) : bool := match b with TLeaf a _ => own_dagger a | TCtrl _ _ _ _ => true | _ => false end.
Lemma get_dagger_root s b : is_comp b = false -> get_blocks_by_tag s b = if has_tag s b then [b] else [].
Proof. destruct b; try discriminate; intros _; cbn [get_blocks_by_tag]; apply app_nil_r. Qed.
Lemma flat_map_rev {A B} (f : A -> list B) l : flat_map f (rev l) = rev (flat_map (fun x => rev (f x)) l).
Proof. induction l as [|x l IH]; [reflexivity|]. cbn. rewrite flat_map_app. cbn. rewrite app_nil_r, IH, rev_app_distr, rev_involutive. reflexivity. Qed.
(** After [dagger] a tag is found on controlled gates and on the gates that are their own dagger, in the opposite order, and nowhere else. *)
Theorem C88_dagger : forall s b, get_blocks_by_tag s (tdagger b) = rev (map tdagger (filter keeps (get_blocks_by_tag s b))).
Proof.
  intros s b. induction b as [a t|par cs b t IH|b e t IH|k bs t IH] using tblock_ind'.
  - rewrite !get_dagger_root by reflexivity. unfold has_tag. cbn [tdagger tag_of]. destruct (own_dagger a) eqn:E.
    + destruct t as [u|]; [|reflexivity]. destruct (String.eqb u s); [|reflexivity]. cbn [filter keeps]. rewrite E. cbn [map rev app tdagger]. rewrite E. reflexivity.
    + destruct t as [u|]; [|reflexivity]. destruct (String.eqb u s); [|reflexivity]. cbn [filter keeps]. rewrite E. reflexivity.
  - rewrite !get_dagger_root by reflexivity. unfold has_tag. cbn [tdagger tag_of]. destruct t as [u|]; [|reflexivity]. destruct (String.eqb u s); reflexivity.
  - rewrite !get_dagger_root by reflexivity. unfold has_tag. cbn [tdagger tag_of]. destruct t as [u|]; [|reflexivity]. destruct (String.eqb u s); reflexivity.
  - cbn [tdagger get_blocks_by_tag]. unfold has_tag at 1. cbn [tag_of app]. rewrite filter_app.
    replace (filter keeps (if has_tag s (TComp k bs t) then [TComp k bs t] else [])) with (@nil tblock) by (destruct (has_tag s (TComp k bs t)); reflexivity).
    cbn [app]. rewrite flat_map_rev. f_equal. induction IH as [|x l H _ IHl]; [reflexivity|]. cbn [map flat_map]. rewrite filter_app, map_app, IHl, H, rev_involutive. reflexivity.
Qed.
(** Of a single operation the dagger keeps the tag exactly if it is the operation itself; a rotation, a phase gate or an evolution loses it. *)
Theorem C88_dagger_operation : forall s a,
  match a with
  | BProj _ _ _ | BSwap _ _ | BCSwap _ _ _ | BMat _ _ | BPrim (PX | PY | PZ | PI_ | PH | PZero | PN _) _ => get_blocks_by_tag s (tdagger (TLeaf a (Some s))) = [TLeaf a (Some s)]
  | BPrim (PS | PSdg | PT | PTdg) _ | BRot _ _ _ | BU _ _ _ _ | BEvo _ _ => get_blocks_by_tag s (tdagger (TLeaf a (Some s))) = []
  | _ => True
  end.
Proof. intros s a. destruct a as [[]| | | | | | | | | | | | |]; try exact I; cbn [tdagger dagger own_dagger get_blocks_by_tag has_tag tag_of]; unfold has_tag; cbn [tag_of]; rewrite ?String.eqb_refl; reflexivity. Qed.
(** [circuit.dagger()] loses the tag of every composite block: the feature map of a circuit is not found in its dagger. *)
Theorem C88_dagger_refuted : exists b, get_blocks_by_tag "FM" b = [b] /\ forall s, get_blocks_by_tag s (tdagger b) = [].
Proof. exists (TComp KChain [TLeaf (BRot RX_ 0 (EVar "x")) None] (Some "FM"%string)). split; reflexivity. Qed.

(** * Flattening *)
Definition plain (b : tblock) : bool := negb (is_comp b).
Lemma Forall2_map_l {A B C} (R : B -> C -> Prop) (f : A -> B) l m : Forall2 R (map f l) m <-> Forall2 (fun x y => R (f x) y) l m.
Proof. revert m. induction l as [|x l IH]; intros m; split; intros H; inversion H; subst; constructor; try assumption; apply IH; assumption. Qed.
Lemma Forall2_weaken {A B} (R Q : A -> B -> Prop) l m : (forall x y, R x y -> Q x y) -> Forall2 R l m -> Forall2 Q l m.
Proof. intros H. induction 1; constructor; auto. Qed.
Lemma filter_flat_map {A B} (p : B -> bool) (f : A -> list B) l : filter p (flat_map f l) = flat_map (fun x => filter p (f x)) l.
Proof. induction l as [|x l IH]; cbn; [reflexivity|]. rewrite filter_app, IH. reflexivity. Qed.
Lemma flat_map_concat {A B} (f : A -> list B) l : flat_map f (concat l) = flat_map (flat_map f) l.
Proof. induction l as [|x l IH]; cbn; [reflexivity|]. rewrite flat_map_app, IH. reflexivity. Qed.
Lemma tflatp_fst_plain si T b : is_comp b = false -> fst (tflatp si T b) = omap (fun y => [y]) (snd (tflatp si T b)).
Proof. destruct b; try discriminate; intros _; reflexivity. Qed.
Lemma tflatp_tags si T b : forall r, snd (tflatp si T b) = Some r -> tag_of r = if is_comp b then None else tag_of b.
Proof.
  destruct b; cbn [tflatp snd is_comp tag_of]; intros r H; try (injection H as <-; reflexivity).
  - unfold omap in H. destruct (snd (tflatp si T b)); [|discriminate H]. injection H as <-. reflexivity.
  - match type of H with obind ?y _ = _ => destruct y end; [|discriminate H]. apply tconstruct_some in H. subst r. reflexivity.
Qed.
Lemma tflatp_shape si T b : forall r, snd (tflatp si T b) = Some r -> is_comp r = is_comp b.
Proof.
  destruct b; cbn [tflatp snd is_comp]; intros r H; try (injection H as <-; reflexivity).
  - unfold omap in H. destruct (snd (tflatp si T b)); [|discriminate H]. injection H as <-. reflexivity.
  - match type of H with obind ?y _ = _ => destruct y end; [|discriminate H]. apply tconstruct_some in H. subst r. reflexivity.
Qed.
Lemma tflatp_get si T s b :
  (forall ys, fst (tflatp si T b) = Some ys -> Forall2 (fun x y => snd (tflatp si T x) = Some y) (filter plain (get_blocks_by_tag s b)) (flat_map (get_blocks_by_tag s) ys)) /\
  (forall r, snd (tflatp si T b) = Some r -> Forall2 (fun x y => snd (tflatp si T x) = Some y) (filter plain (get_blocks_by_tag s b)) (get_blocks_by_tag s r)).
Proof.
  assert (L : forall b r, is_comp b = false -> snd (tflatp si T b) = Some r -> Forall2 (fun x y => snd (tflatp si T x) = Some y) (filter plain (get_blocks_by_tag s b)) (get_blocks_by_tag s r)).
  { intros c r N H. rewrite (get_dagger_root s c N), (get_dagger_root s r) by (rewrite (tflatp_shape _ _ _ _ H); exact N). pose proof (tflatp_tags si T c r H) as E. rewrite N in E.
    unfold has_tag. rewrite E. destruct (tag_of c) as [u|]; [|constructor]. destruct (String.eqb u s); [|constructor]. cbn [filter]. unfold plain. rewrite N. cbn. repeat constructor. exact H. }
  assert (L1 : forall b ys, is_comp b = false -> fst (tflatp si T b) = Some ys -> Forall2 (fun x y => snd (tflatp si T x) = Some y) (filter plain (get_blocks_by_tag s b)) (flat_map (get_blocks_by_tag s) ys)).
  { intros c ys N H. rewrite (tflatp_fst_plain si T c N) in H. unfold omap in H. destruct (snd (tflatp si T c)) as [r|] eqn:E; [|discriminate H]. injection H as <-. cbn [flat_map]. rewrite app_nil_r. apply L; assumption. }
  induction b as [a t|par cs b t IH|b e t IH|k bs t IH] using tblock_ind'; try (split; intros; [apply L1|apply L]; [reflexivity|assumption|reflexivity|assumption]).
  assert (G : forall ys, fst (tflatp si T (TComp k bs t)) = Some ys -> Forall2 (fun x y => snd (tflatp si T x) = Some y) (flat_map (fun x => filter plain (get_blocks_by_tag s x)) bs) (flat_map (get_blocks_by_tag s) ys)).
  { intros ys H. cbn [tflatp fst] in H. destruct (kind_eqb k T).
    - unfold omap in H at 1. match type of H with obind (osequence (map ?f bs)) _ = _ => destruct (osequence (map f bs)) as [zs|] eqn:E; [|discriminate H]; apply (osequence_forall2 f) in E end. injection H as <-.
      rewrite flat_map_concat. induction E as [|x z l l' Ex _ IHl]; [constructor|]. inversion IH as [|? ? [H1 H2] Hr]; subst. cbn [flat_map]. apply Forall2_app; [|apply IHl; exact Hr].
      destruct (tis_kind T x); [apply H1; exact Ex|]. unfold omap in Ex. destruct (snd (tflatp si T x)) as [r|] eqn:Er; [|discriminate Ex]. injection Ex as <-. cbn [flat_map]. rewrite app_nil_r. apply H2. reflexivity.
    - apply (osequence_forall2 (fun x => snd (tflatp si T x))) in H. induction H as [|x z l l' Ex _ IHl]; [constructor|]. inversion IH as [|? ? [H1 H2] Hr]; subst. cbn [flat_map]. apply Forall2_app; [apply H2; exact Ex|apply IHl; exact Hr]. }
  assert (F : filter plain (get_blocks_by_tag s (TComp k bs t)) = flat_map (fun x => filter plain (get_blocks_by_tag s x)) bs).
  { cbn [get_blocks_by_tag]. rewrite filter_app, filter_flat_map. destruct (has_tag s (TComp k bs t)); reflexivity. }
  rewrite F. split; [exact G|]. intros r H. cbn [tflatp snd] in H. cbn [tflatp fst] in G. match type of H with obind ?y _ = _ => destruct y as [ys|] eqn:E; [|discriminate H] end.
  apply tconstruct_some in H. subst r. cbn [get_blocks_by_tag]. unfold has_tag at 1. cbn [tag_of app]. apply G. reflexivity.
Qed.
Lemma fold_none {A} (f : A -> kind -> option A) types : fold_left (fun acc T => obind acc (fun x => f x T)) types None = None.
Proof. induction types; [reflexivity|exact IHtypes]. Qed.
Lemma tflatten_nil si b : tflatten si [] b = Some b.
Proof. induction b as [a t|par cs b t IH|b e t IH|k bs t IH] using tblock_ind'; try reflexivity. cbn [tflatten]. rewrite IH. reflexivity. Qed.
Lemma tflatten_cons si T types b : tflatten si (T :: types) b = obind (snd (tflatp si T b)) (tflatten si types).
Proof.
  induction b as [a t|par cs b t IH|b e t IH|k bs t IH] using tblock_ind'; try reflexivity.
  - cbn [tflatten]. rewrite IH. cbn [tflatp snd]. unfold omap. destruct (snd (tflatp si T b)); reflexivity.
  - cbn [tflatten fold_left obind]. destruct (snd (tflatp si T (TComp k bs t))) as [r|] eqn:E.
    + pose proof (tflatp_shape _ _ _ _ E) as S. destruct r; try discriminate S. reflexivity.
    + cbn [obind]. apply (fold_none (fun x T => snd (tflatp si T x))).
Qed.
(** After flattening a tag is found on the blocks that are not compositions, in the same order, and nowhere else. *)
Theorem C88_flatten : forall si types s b b', types <> [] -> tflatten si types b = Some b' ->
  Forall2 (fun x y => tflatten si types x = Some y) (filter (fun x => negb (is_comp x)) (get_blocks_by_tag s b)) (get_blocks_by_tag s b').
Proof.
  intros si types s. change (fun x => negb (is_comp x)) with plain. induction types as [|T types IH]; intros b b' NE H; [congruence|]. rewrite tflatten_cons in H. destruct (snd (tflatp si T b)) as [m|] eqn:E; [|discriminate H]. cbn [obind] in H.
  pose proof (proj2 (tflatp_get si T s b) m E) as G. destruct types as [|T2 types].
  - rewrite tflatten_nil in H. injection H as <-. eapply Forall2_weaken; [|exact G]. intros x y Exy. rewrite tflatten_cons, Exy. apply tflatten_nil.
  - specialize (IH m b' ltac:(discriminate) H).
    assert (P : filter plain (get_blocks_by_tag s m) = get_blocks_by_tag s m).
    { clear - G. assert (Q : forall x, In x (filter plain (get_blocks_by_tag s b)) -> plain x = true) by (intros x I; apply filter_In in I; apply I). revert Q. induction G as [|x y l l' Exy _ IHG]; intros Q; [reflexivity|]. cbn [filter].
      assert (plain y = true) as ->. { unfold plain. rewrite (tflatp_shape _ _ _ _ Exy). apply (Q x). left. reflexivity. } rewrite IHG; [reflexivity|]. intros z I. apply Q. right. exact I. }
    rewrite P in IH. clear - G IH. revert IH. generalize (get_blocks_by_tag s b'). induction G as [|x y l l' Exy _ IHG]; intros z H; inversion H; subst; constructor; [|apply IHG; assumption].
    rewrite tflatten_cons, Exy. assumption.
Qed.
(** Flattening loses the tags of compositions, that of the whole block included, also when there is nothing to flatten. *)
Theorem C88_flatten_refuted : exists b, get_blocks_by_tag "FM" b = [b] /\ forall si, exists b', tflatten si [KChain; KKron; KAdd] b = Some b' /\ erase b' = erase b /\ forall s, get_blocks_by_tag s b' = [].
Proof. exists (TComp KChain [TLeaf (BRot RX_ 0 (EVar "x")) None] (Some "FM"%string)). split; [reflexivity|]. intros si. eexists. split; [reflexivity|]. split; reflexivity. Qed.

(** * Scaled and controlled blocks *)
(** A tag inside a scaled or a controlled block is not found: circuit.get_blocks_by_tag goes into compositions only. *)
Theorem C88_hidden_refuted : exists c, get_blocks_by_tag "FM" c = [c] /\
  (forall e s, get_blocks_by_tag s (TScale c e None) = []) /\ (forall cs s, get_blocks_by_tag s (TCtrl false cs c None) = []).
Proof. exists (TComp KChain [TLeaf (BRot RX_ 0 (EVar "x")) None] (Some "FM"%string)). repeat split; reflexivity. Qed.

(** [parts_of R l m]: [m] has, in order, an entry for every entry of [l] (and perhaps others). *)
Inductive parts_of {A B} (R : A -> B -> Prop) : list A -> list B -> Prop :=
| parts_nil m : parts_of R [] m
| parts_take x y l m : R x y -> parts_of R l m -> parts_of R (x :: l) (y :: m)
| parts_skip y l m : parts_of R l m -> parts_of R l (y :: m).
Lemma parts_before {A B} (R : A -> B -> Prop) l m k : parts_of R l m -> parts_of R l (k ++ m).
Proof. intros H. induction k; [exact H|]. cbn. constructor. exact IHk. Qed.
Lemma parts_app {A B} (R : A -> B -> Prop) l m l2 m2 : parts_of R l m -> parts_of R l2 m2 -> parts_of R (l ++ l2) (m ++ m2).
Proof. intros H H2. induction H; cbn; [apply parts_before, H2|constructor; assumption|constructor; assumption]. Qed.
Lemma parts_root (R : tblock -> tblock -> Prop) s b b' : tag_of b' = tag_of b -> R b b' ->
  parts_of R (if has_tag s b then [b] else []) (if has_tag s b' then [b'] else []).
Proof. intros E H. unfold has_tag. rewrite E. destruct (tag_of b) as [u|]; [|constructor]. destruct (String.eqb u s); repeat constructor. exact H. Qed.
Lemma tag_retag t b : tag_of (retag t b) = t. Proof. destruct b; reflexivity. Qed.
Lemma tscale_tag si b b' : tscale si None b = Some b' -> tag_of b' = tag_of b.
Proof.
  destruct b as [a t|par cs c t|c e t|k bs t]; cbn [tscale]; intros H.
  - replace b' with (TLeaf a t); [reflexivity|]. destruct a; try (injection H as <-; reflexivity). destruct p; injection H as <-; reflexivity.
  - injection H as <-. reflexivity.
  - unfold omap in H. destruct (tscale si (Some e) c); [|discriminate H]. injection H as <-. apply tag_retag.
  - destruct k; [| |unfold omap in H; destruct (osequence (map (tscale si None) bs)); [|discriminate H]; injection H as <-; reflexivity];
      (destruct bs as [|x r]; [injection H as <-; reflexivity|]; match type of H with obind ?y _ = _ => destruct y; [|discriminate H] end; apply tconstruct_some in H; subst b'; reflexivity).
Qed.
Lemma get_root s b : exists l, get_blocks_by_tag s b = (if has_tag s b then [b] else []) ++ l.
Proof. destruct b; eexists; reflexivity. Qed.
Lemma parts_front {A B} (R : A -> B -> Prop) l m k : parts_of R l m -> parts_of R l (m ++ k).
Proof. induction 1; cbn; [constructor|constructor; assumption|constructor; assumption]. Qed.
(** Moving the scales to the primitive blocks keeps the tag of the whole block, and a tag is found wherever it was found before. *)
Theorem C88_scale : forall si s b b', tscale si None b = Some b' ->
  tag_of b' = tag_of b /\ parts_of (fun x y => tscale si None x = Some y) (get_blocks_by_tag s b) (get_blocks_by_tag s b').
Proof.
  intros si s b b' H. split; [apply (tscale_tag si), H|]. revert b' H.
  assert (W : forall b b', is_comp b = false -> tscale si None b = Some b' -> parts_of (fun x y => tscale si None x = Some y) (get_blocks_by_tag s b) (get_blocks_by_tag s b')).
  { intros c c' N H. rewrite (get_dagger_root s c N). destruct (get_root s c') as (l & ->). apply parts_front. apply parts_root; [apply (tscale_tag si), H|exact H]. }
  induction b as [a t|par cs b t IH|b e t IH|k bs t IH] using tblock_ind'; intros b' H; try (apply W; [reflexivity|exact H]).
  assert (G : forall l ys, Forall (fun b => forall b', tscale si None b = Some b' -> parts_of (fun x y => tscale si None x = Some y) (get_blocks_by_tag s b) (get_blocks_by_tag s b')) l ->
    osequence (map (tscale si None) l) = Some ys -> parts_of (fun x y => tscale si None x = Some y) (flat_map (get_blocks_by_tag s) l) (flat_map (get_blocks_by_tag s) ys)).
  { intros l ys F E. apply osequence_forall2 in E. induction E as [|x y l l' Exy _ IHl]; [constructor|]. inversion F; subst. cbn [flat_map]. apply parts_app; auto. }
  assert (K : exists ys, osequence (map (tscale si None) bs) = Some ys /\ b' = TComp k ys t).
  { clear - H. cbn [tscale] in H. destruct k.
    - destruct bs as [|x r]; [injection H as <-; exists []; split; reflexivity|]. change (tscale si None x :: map (tscale si None) r) with (map (tscale si None) (x :: r)) in H.
      destruct (osequence (map (tscale si None) (x :: r))) as [ys|]; [|discriminate H]. apply tconstruct_some in H. exists ys. split; [reflexivity|exact H].
    - destruct bs as [|x r]; [injection H as <-; exists []; split; reflexivity|]. change (tscale si None x :: map (tscale si None) r) with (map (tscale si None) (x :: r)) in H.
      destruct (osequence (map (tscale si None) (x :: r))) as [ys|]; [|discriminate H]. apply tconstruct_some in H. exists ys. split; [reflexivity|exact H].
    - unfold omap in H. destruct (osequence (map (tscale si None) bs)) as [ys|]; [|discriminate H]. injection H as <-. exists ys. split; reflexivity. }
  destruct K as (ys & E & ->). cbn [get_blocks_by_tag]. apply parts_app; [|apply G; assumption]. apply parts_root; [reflexivity|exact H].
Qed.
(** Scaling a primitive block hides its tag: kron(tag(X(0), "a"), Y(1)) in a sum is found before, and 2 times the sum has no block "a". *)
Theorem C88_scale_refuted : exists b, forall si, length (get_blocks_by_tag "a" b) = 1%nat /\
  exists b', tscale si None (TScale b (EVar "x") None) = Some b' /\ get_blocks_by_tag "a" b' = [].
Proof. exists (TComp KAdd [TLeaf (BPrim PX 0) (Some "a"%string); TLeaf (BPrim PY 1) None] None). intros si. split; [reflexivity|]. eexists. split; reflexivity. Qed.

(** * Drawing *)
(** [dimmed b b']: [b'] is [b], except that some primitive blocks have lost their tags. *)
Inductive dimmed : tblock -> tblock -> Prop :=
| dimmed_same b : dimmed b b
| dimmed_primitive b : is_comp b = false -> dimmed b (retag None b)
| dimmed_parts k bs bs' t : Forall2 dimmed bs bs' -> dimmed (TComp k bs t) (TComp k bs' t).
Definition tagged (s : string) (b : tblock) : nat := length (get_blocks_by_tag s b).
Definition tagged_all (s : string) (l : list tblock) : nat := length (flat_map (get_blocks_by_tag s) l).
Definition tag_count (s : string) (t : ttag) : nat := match t with Some u => if String.eqb u s then 1 else 0 | None => 0 end%nat.
Lemma tagged_comp s k bs t : tagged s (TComp k bs t) = (tag_count s t + tagged_all s bs)%nat.
Proof. unfold tagged, tagged_all. cbn [get_blocks_by_tag]. rewrite app_length. f_equal. unfold has_tag. cbn [tag_of]. destruct t as [u|]; [|reflexivity]. cbn. destruct (String.eqb u s); reflexivity. Qed.
Lemma tagged_prim s b : is_comp b = false -> tagged s b = tag_count s (tag_of b).
Proof. intros N. unfold tagged. rewrite (get_dagger_root s b N). unfold has_tag. destruct (tag_of b) as [u|]; [|reflexivity]. cbn. destruct (String.eqb u s); reflexivity. Qed.
Lemma tagged_all_cons s b l : tagged_all s (b :: l) = (tagged s b + tagged_all s l)%nat.
Proof. unfold tagged_all, tagged. cbn. apply app_length. Qed.
Lemma tagged_all_app s l m : tagged_all s (l ++ m) = (tagged_all s l + tagged_all s m)%nat.
Proof. unfold tagged_all. rewrite flat_map_app. apply app_length. Qed.
Lemma tagged_all_zero s l : (forall b, In b l -> tagged s b = 0%nat) -> tagged_all s l = 0%nat.
Proof. induction l as [|b l IH]; intros H; [reflexivity|]. rewrite tagged_all_cons, H by (left; reflexivity). apply IH. intros c I. apply H. right. exact I. Qed.
Lemma tagged_ins si s b l : tagged_all s (tins si b l) = (tagged s b + tagged_all s l)%nat.
Proof. induction l as [|c r IH]; cbn [tins]; [apply tagged_all_cons|]. destruct (lex_leb _ _); rewrite ?tagged_all_cons; [reflexivity|]. rewrite IH. lia. Qed.
Lemma tagged_sort si s l : tagged_all s (tsort si l) = tagged_all s l.
Proof. induction l as [|b l IH]; [reflexivity|]. cbn [tsort]. rewrite tagged_ins, tagged_all_cons, IH. reflexivity. Qed.
Lemma tagged_ids s i n : tagged_all s (repeat (tidb i) n) = 0%nat.
Proof. apply tagged_all_zero. intros b I. apply repeat_spec in I. subst b. reflexivity. Qed.
Lemma erase_retag t b : erase (retag t b) = erase b. Proof. destruct b; reflexivity. Qed.
Lemma comp_retag t b : is_comp (retag t b) = is_comp b. Proof. destruct b; reflexivity. Qed.
Lemma tagged_append si s n b z : tappend_ids si n b = Some z -> tagged s z = tagged s b.
Proof.
  unfold tappend_ids. destruct (minmax (tsup si b)) as [mm|]; [|discriminate]. intros [= <-]. rewrite tagged_comp, tagged_all_cons. cbn [tag_count].
  rewrite (tagged_all_zero s (flat_map _ _)); [lia|]. intros c I. apply in_flat_map in I as (i & _ & I). apply repeat_spec in I. subst c. reflexivity.
Qed.
Lemma dimmed_erase b : forall b', dimmed b b' -> erase b' = erase b.
Proof.
  induction b as [a t|par cs b t IH|b e t IH|k bs t IH] using tblock_ind'; intros b' H; inversion H as [| |? ? bs' ? F]; subst; try reflexivity; try apply erase_retag.
  cbn [erase]. f_equal. clear H. induction F as [|x y l l' D _ IHl]; [reflexivity|]. inversion IH; subst. cbn. f_equal; auto.
Qed.
Definition fill_ok (s : string) (b : tblock) (p : tblock * tblock) : Prop := tagged s (fst p) = tagged s b /\ dimmed b (snd p).
Lemma fill_ok_all s l ps : Forall2 (fill_ok s) l ps -> tagged_all s (map fst ps) = tagged_all s l /\ Forall2 dimmed l (map snd ps).
Proof. induction 1 as [|b p l ps [H1 H2] _ [I1 I2]]; [split; [reflexivity|constructor]|]. cbn [map]. rewrite !tagged_all_cons. split; [lia|constructor; assumption]. Qed.
Lemma fill_prim si s b start stop p : is_comp b = false -> tfill si b start stop = Some p -> fill_ok s b p.
Proof.
  intros N H.
  assert (E : tfill si b start stop = if tuple_eqb (tsup si b) (rng start stop) then Some (b, b)
        else omap (fun r => (r, retag None b)) (tconstruct si KKron (tsort si (retag None b :: map (fun i => match b with TLeaf (BSwap _ _) _ => TComp KChain [tidb i; tidb i] None | _ => tidb i end)
             (set_diff si (rng start stop) (tsup si b)))) (tag_of b))) by (destruct b; try discriminate N; reflexivity).
  rewrite E in H. clear E. destruct (tuple_eqb _ _); [injection H as <-; split; [reflexivity|apply dimmed_same]|].
  unfold omap in H. match type of H with obind ?y _ = _ => destruct y as [r|] eqn:C; [|discriminate H] end. injection H as <-. apply tconstruct_some in C. subst r. split; [|apply dimmed_primitive, N].
  cbn [fst]. rewrite tagged_comp, tagged_sort, tagged_all_cons, (tagged_prim s b N), (tagged_prim s (retag None b)) by (rewrite comp_retag; exact N). rewrite tag_retag. cbn [tag_count].
  rewrite tagged_all_zero; [lia|]. intros c I. apply in_map_iff in I as (i & <- & _). destruct b as [[]| | |]; reflexivity.
Qed.
Lemma fill_spec si s b : forall start stop p, tfill si b start stop = Some p -> fill_ok s b p.
Proof.
  induction b as [a t|par cs b t IH|b e t IH|k bs t IH] using tblock_ind'; intros start stop p H; try (apply (fill_prim si s _ start stop); [reflexivity|exact H]).
  assert (G : forall f : tblock -> option (tblock * tblock), (forall x q, f x = Some q -> exists u v, tfill si x u v = Some q) -> forall ps, osequence (map f bs) = Some ps -> Forall2 (fill_ok s) bs ps).
  { intros f Hf ps E. apply osequence_forall2 in E. clear - IH E Hf. induction E as [|x y l l' Exy _ IHl]; [constructor|]. inversion IH; subst. constructor; [|auto]. destruct (Hf x y Exy) as (u & v & E2). eauto. }
  assert (C : forall k0, k0 = k -> omap (fun ps => (TComp k0 (map fst ps) t, TComp k0 (map snd ps) t)) (osequence (map (fun x => tfill si x start stop) bs)) = Some p -> fill_ok s (TComp k0 bs t) p).
  { intros k0 _ E. unfold omap in E. destruct (osequence (map (fun x => tfill si x start stop) bs)) as [ps|] eqn:Q; [|discriminate E]. injection E as <-.
    apply (G (fun x => tfill si x start stop)) in Q; [|eauto]. apply fill_ok_all in Q as [Q1 Q2]. split; cbn [fst snd]; [rewrite !tagged_comp, Q1; reflexivity|apply dimmed_parts, Q2]. }
  cbn [tfill] in H. destruct k; [apply C; [reflexivity|exact H]| |apply C; [reflexivity|exact H]]. clear C.
  match type of H with obind (osequence (map ?f bs)) _ = _ => destruct (osequence (map f bs)) as [ps|] eqn:E; [apply (G f) in E|discriminate H] end.
  2:{ intros x q Ex. destruct (minmax (tsup si x)) as [mm|]; [|discriminate Ex]. cbn in Ex. eauto. }
  cbn [obind] in H. apply fill_ok_all in E as [E1 E2].
  match type of H with obind (osequence (map ?f ?l)) _ = _ => destruct (osequence (map f l)) as [zs|] eqn:Z; [|discriminate H] end. cbn [obind] in H. unfold omap in H.
  match type of H with obind ?y _ = _ => destruct y as [r|] eqn:K; [|discriminate H] end. injection H as <-. apply tconstruct_some in K. subst r. split; cbn [fst snd]; [|apply dimmed_parts, E2].
  rewrite !tagged_comp, tagged_sort, tagged_all_app. rewrite (tagged_all_zero s (map _ _)) by (intros c I; apply in_map_iff in I as (i & <- & _); unfold tid_chain; rewrite tagged_comp, tagged_ids; reflexivity).
  enough (tagged_all s zs = tagged_all s (map fst ps)) by lia. apply osequence_forall2 in Z. clear - Z. induction Z as [|x y l l' Exy _ IHl]; [reflexivity|]. rewrite !tagged_all_cons, IHl. f_equal. apply (tagged_append _ _ _ _ _ Exy).
Qed.
(** In a drawing every tag labels as many blocks as the given block has with it.  The given block is afterwards the same
    except that primitive blocks may have lost their tags. *)
Theorem C88_draw : forall si s b picture after, drawn si b = Some (picture, after) ->
  length (get_blocks_by_tag s picture) = length (get_blocks_by_tag s b) /\ dimmed b after /\ erase after = erase b.
Proof. intros si s b picture after H. destruct (fill_spec si s b _ _ _ H) as [H1 H2]. cbn in H1, H2. split; [exact H1|]. split; [exact H2|apply dimmed_erase, H2]. Qed.
(** Drawing changes the block of the user: a tagged gate in a wider circuit has lost its tag, and a second drawing does not show it. *)
Theorem C88_draw_refuted : exists b picture after picture2 after2, let si := nodup Nat.eq_dec in
  drawn si b = Some (picture, after) /\ drawn si after = Some (picture2, after2) /\
  length (get_blocks_by_tag "gate" picture) = 1%nat /\ length (get_blocks_by_tag "gate" b) = 1%nat /\ get_blocks_by_tag "gate" after = [] /\ get_blocks_by_tag "gate" picture2 = [].
Proof.
  exists (TComp KChain [TLeaf (BPrim PX 0) (Some "gate"%string); TLeaf (BPrim PX 1) None] None). do 4 eexists. cbv zeta.
  split; [vm_compute; reflexivity|]. split; [vm_compute; reflexivity|]. vm_compute. repeat split; reflexivity.
Qed.

(** * Agreement with the blocks without tags *)
(** the leaves have no parts *)
Definition atom (a : block) : Prop := match a with BScale _ _ | BChain _ | BKron _ | BAdd _ | BCtrl _ _ | BPCtrl _ _ => False | _ => True end.
Fixpoint atoms (b : tblock) : Prop :=
  match b with
  | TLeaf a _ => atom a
  | TCtrl _ _ b' _ | TScale b' _ _ => atoms b'
  | TComp _ bs _ => fold_right and True (map atoms bs)
  end.
Lemma atoms_all bs : fold_right and True (map atoms bs) <-> Forall atoms bs.
Proof. induction bs as [|b bs IH]; cbn; split; intros H; [constructor|exact I|destruct H; constructor; tauto|inversion H; tauto]. Qed.
Lemma erase_tconstruct si k bs t : omap erase (tconstruct si k bs t) = construct si k (map erase bs).
Proof. unfold tconstruct, omap. destruct (construct si k (map erase bs)) as [b|] eqn:E; [|reflexivity]. cbn. apply construct_some in E. subst b. reflexivity. Qed.
Lemma osequence_erase (f : tblock -> option tblock) (g : block -> option block) l : Forall (fun x => omap erase (f x) = g (erase x)) l ->
  osequence (map g (map erase l)) = omap (map erase) (osequence (map f l)).
Proof.
  induction 1 as [|x l H _ IH]; [reflexivity|]. cbn [map osequence]. rewrite <- H, IH. unfold omap. destruct (f x); [|reflexivity]. cbn. destruct (osequence (map f l)); reflexivity.
Qed.
Lemma omap_obind {A B C} (f : B -> C) (x : option A) (g : A -> option B) : omap f (obind x g) = obind x (fun a => omap f (g a)).
Proof. destruct x; reflexivity. Qed.
Lemma flatten_nil si b : flatten si [] b = Some b.
Proof. induction b; try reflexivity. cbn [flatten]. rewrite IHb. reflexivity. Qed.
Lemma flatten_cons si T types b : flatten si (T :: types) b = obind (snd (flatp si T b)) (flatten si types).
Proof.
  assert (C : forall k bs, flatten si (T :: types) (comp k bs) = obind (snd (flatp si T (comp k bs))) (flatten si types)).
  { intros k bs. assert (X : flatten si (T :: types) (comp k bs) = fold_left (fun acc T => obind acc (fun x => snd (flatp si T x))) types (snd (flatp si T (comp k bs)))) by (destruct k; reflexivity).
    rewrite X. destruct (snd (flatp si T (comp k bs))) as [r|] eqn:E; [|cbn [obind]; apply (fold_none (fun x T => snd (flatp si T x)))].
    assert (S : exists l, r = comp k l).
    { destruct k; cbn [comp flatp snd] in E; match type of E with obind ?y _ = _ => destruct y as [l|] end; try discriminate E; exists l; cbn [obind] in E; apply (construct_some si) in E; exact E. }
    destruct S as (l & ->). cbn [obind]. destruct k; reflexivity. }
  induction b; try reflexivity; [|apply (C KChain)|apply (C KKron)|apply (C KAdd)].
  cbn [flatten]. rewrite IHb. cbn [flatp snd]. unfold omap. destruct (snd (flatp si T b)); reflexivity.
Qed.
Lemma erase_kind T b : atoms b -> is_kind T (erase b) = tis_kind T b.
Proof. destruct b as [a t|par cs b t|b e t|k bs t]; intros A; [destruct a, T; try contradiction A; reflexivity|destruct par, T; reflexivity|destruct T; reflexivity|destruct k, T; reflexivity]. Qed.
Lemma erase_flatp si T b : atoms b ->
  omap (map erase) (fst (tflatp si T b)) = fst (flatp si T (erase b)) /\ omap erase (snd (tflatp si T b)) = snd (flatp si T (erase b)) /\
  (forall l, fst (tflatp si T b) = Some l -> Forall atoms l) /\ (forall r, snd (tflatp si T b) = Some r -> atoms r).
Proof.
  induction b as [a t|par cs b t IH|b e t IH|k bs t IH] using tblock_ind'; intros A.
  - cbn [tflatp fst snd erase]. split; [|split]; [destruct a; try contradiction A; reflexivity|destruct a; try contradiction A; reflexivity|]. split; intros ? [= <-]; [constructor; [|constructor]|]; exact A.
  - cbn [tflatp fst snd erase]. split; [|split]; [destruct par; reflexivity|destruct par; reflexivity|]. split; intros ? [= <-]; [constructor; [|constructor]|]; exact A.
  - destruct (IH A) as (_ & E & _ & K). cbn [tflatp fst snd erase flatp]. rewrite <- E. unfold omap. destruct (snd (tflatp si T b)) as [r|]; cbn; (split; [reflexivity|split; [reflexivity|]]); split; intros ? H; try discriminate H; injection H as <-; [constructor; [|constructor]|]; apply (K r eq_refl).
  - cbn [atoms] in A. apply atoms_all in A.
    set (f := fun x => if tis_kind T x then fst (tflatp si T x) else omap (fun y => [y]) (snd (tflatp si T x))).
    set (ys := if kind_eqb k T then omap (@concat tblock) (osequence (map f bs)) else osequence (map (fun x => snd (tflatp si T x)) bs)).
    set (g := fun x => if is_kind T x then fst (flatp si T x) else omap (fun y => [y]) (snd (flatp si T x))).
    set (zs := if kind_eqb k T then omap (@concat block) (osequence (map g (map erase bs))) else osequence (map (fun x => snd (flatp si T x)) (map erase bs))).
    assert (B : flatp si T (erase (TComp k bs t)) = (zs, obind zs (construct si k))) by (unfold zs, g; destruct k; reflexivity).
    change (tflatp si T (TComp k bs t)) with (ys, obind ys (fun l => tconstruct si k l None)). rewrite B. cbn [fst snd].
    assert (Y : omap (map erase) ys = zs /\ forall l, ys = Some l -> Forall atoms l).
    { assert (IH2 : Forall (fun b => atoms b /\ omap (map erase) (fst (tflatp si T b)) = fst (flatp si T (erase b)) /\ omap erase (snd (tflatp si T b)) = snd (flatp si T (erase b)) /\
  (forall l, fst (tflatp si T b) = Some l -> Forall atoms l) /\ (forall r, snd (tflatp si T b) = Some r -> atoms r)) bs) by (clear - IH A; induction IH; inversion A; constructor; [split|]; auto).
      clear - IH2. unfold ys, zs. destruct (kind_eqb k T).
      - assert (Z : omap (map (map erase)) (osequence (map f bs)) = osequence (map g (map erase bs)) /\ forall l, osequence (map f bs) = Some l -> Forall (Forall atoms) l).
        { clear ys zs. induction IH2 as [|x l (A & H1 & H2 & H3 & H4) _ [I1 I2]]; [split; [reflexivity|intros ? [= <-]; constructor]|].
          assert (X : omap (map erase) (f x) = g (erase x)). { unfold f, g. rewrite (erase_kind T x A). destruct (tis_kind T x); [exact H1|]. rewrite <- H2. unfold omap. destruct (snd (tflatp si T x)); reflexivity. }
          assert (X2 : forall l, f x = Some l -> Forall atoms l). { unfold f. destruct (tis_kind T x); [exact H3|]. unfold omap. destruct (snd (tflatp si T x)) as [r|]; [|discriminate]. intros ? [= <-]. repeat constructor. apply H4. reflexivity. }
          cbn [map osequence]. rewrite <- X, <- I1. unfold omap. destruct (f x) as [u|]; [|split; [reflexivity|discriminate]]. cbn. destruct (osequence (map f l)) as [v|]; [|split; [reflexivity|discriminate]]. cbn. split; [reflexivity|]. intros ? [= <-]. constructor; auto. }
        destruct Z as [Z1 Z2]. rewrite <- Z1. unfold omap. destruct (osequence (map f bs)) as [ls|]; [|split; [reflexivity|discriminate]]. cbn. split; [rewrite concat_map; reflexivity|]. intros ? [= <-]. specialize (Z2 _ eq_refl). clear - Z2. induction Z2; [constructor|]. cbn. apply Forall_app. auto.
      - split.
        + symmetry. apply (osequence_erase (fun x => snd (tflatp si T x)) (fun x => snd (flatp si T x))). eapply Forall_impl; [|exact IH2]. intros x H. apply H.
        + intros l E. apply (osequence_forall2 (fun x => snd (tflatp si T x))) in E. clear - IH2 E. induction E as [|x y l l' Exy _ IHl]; [constructor|]. inversion IH2 as [|? ? H R]; subst. constructor; [apply H; exact Exy|auto]. }
    clearbody ys zs. destruct Y as [Y1 Y2]. split; [exact Y1|]. rewrite <- Y1. unfold omap at 2. destruct ys as [l|]; cbn [obind].
    + split; [apply erase_tconstruct|]. split; [exact Y2|]. intros r H. apply tconstruct_some in H. subst r. cbn [atoms]. apply atoms_all. apply Y2. reflexivity.
    + split; [reflexivity|]. split; intros ? H; discriminate H.
Qed.
(** Renumbering, the dagger, flattening and moving scales do to the blocks what they do without tags. *)
Theorem C88_erase : forall si b, atoms b ->
  (forall m, omap erase (treassign si m b) = reassign si m (erase b)) /\ erase (tdagger b) = dagger (erase b) /\
  (forall types, omap erase (tflatten si types b) = flatten si types (erase b)) /\ (forall s, omap erase (tscale si s b) = scale_prims si s (erase b)).
Proof.
  intros si b A. repeat split.
  - intros m. revert A. induction b as [a t|par cs b t IH|b e t IH|k bs t IH] using tblock_ind'; intros A; cbn [treassign erase].
    + unfold omap. destruct (reassign si m a); reflexivity.
    + specialize (IH A). destruct par; cbn [reassign]; rewrite <- IH; unfold omap; destruct (osequence (map m cs)); try reflexivity; cbn; destruct (treassign si m b); reflexivity.
    + specialize (IH A). cbn [reassign]. rewrite <- IH. unfold omap. destruct (treassign si m b); reflexivity.
    + cbn [atoms] in A. apply atoms_all in A. assert (F : Forall (fun x => omap erase (treassign si m x) = reassign si m (erase x)) bs) by (clear - IH A; induction IH; inversion A; constructor; auto).
      apply osequence_erase in F. rewrite omap_obind. destruct k; cbn [comp reassign]; rewrite F; unfold omap at 2; destruct (osequence (map (treassign si m) bs)) as [ys|]; try reflexivity; cbn [obind]; apply erase_tconstruct.
  - revert A. induction b as [a t|par cs b t IH|b e t IH|k bs t IH] using tblock_ind'; intros A; cbn [tdagger erase].
    + reflexivity.
    + rewrite (IH A). destruct par; reflexivity.
    + rewrite (IH A). reflexivity.
    + cbn [atoms] in A. apply atoms_all in A. assert (E : map erase (rev (map tdagger bs)) = rev (map dagger (map erase bs))).
      { rewrite map_rev, !map_map. f_equal. apply map_ext_in. rewrite Forall_forall in IH, A. auto. }
      rewrite E. destruct k; reflexivity.
  - intros types. revert b A. induction types as [|T types IH]; intros b A; [rewrite tflatten_nil, flatten_nil; reflexivity|].
    rewrite tflatten_cons, flatten_cons. destruct (erase_flatp si T b A) as (_ & E & _ & K). rewrite omap_obind, <- E. unfold omap at 2. destruct (snd (tflatp si T b)) as [r|]; [|reflexivity]. cbn [obind]. apply IH. apply K. reflexivity.
  - revert A. induction b as [a t|par cs b t IH|b e t IH|k bs t IH] using tblock_ind'; intros A s.
    + cbn [erase atoms] in *. destruct a; try contradiction A; try (destruct s; reflexivity). destruct p; destruct s; reflexivity.
    + cbn [tscale erase]. destruct par, s; reflexivity.
    + cbn [tscale erase scale_prims]. rewrite <- (IH A). unfold omap. destruct (tscale si _ b); [|reflexivity]. cbn. rewrite erase_retag. reflexivity.
    + cbn [atoms] in A. apply atoms_all in A. assert (F : forall s, Forall (fun x => omap erase (tscale si s x) = scale_prims si s (erase x)) bs) by (intros s0; clear - IH A; induction IH; inversion A; constructor; auto).
      assert (Q : forall k0, obind (match bs with [] => Some [] | x :: r => osequence (tscale si s x :: map (tscale si None) r) end) (fun l => omap erase (tconstruct si k0 l t)) =
        obind (match map erase bs with [] => Some [] | x :: r => osequence (scale_prims si s x :: map (scale_prims si None) r) end) (construct si k0)).
      { intros k0. destruct bs as [|x r]; [cbn [obind map]; apply erase_tconstruct|]. cbn [map osequence]. pose proof (F s) as F1. pose proof (F None) as F2. inversion F1 as [|? ? X1 _]; subst. inversion F2 as [|? ? _ X2]; subst.
        rewrite <- X1. apply osequence_erase in X2. rewrite X2. unfold omap. destruct (tscale si s x); [|reflexivity]. cbn [obind]. destruct (osequence (map (tscale si None) r)) as [ys|]; [|reflexivity]. cbn [obind]. apply (erase_tconstruct si k0 (t0 :: ys) t). }
      destruct k; cbn [tscale erase comp scale_prims].
      * specialize (Q KChain). destruct bs as [|x r]; [reflexivity|]. cbn [map] in *. rewrite omap_obind. exact Q.
      * specialize (Q KKron). destruct bs as [|x r]; [reflexivity|]. cbn [map] in *. rewrite omap_obind. exact Q.
      * rewrite (osequence_erase _ _ _ (F s)). unfold omap. destruct (osequence (map (tscale si s) bs)); reflexivity.
Qed.
Example C88_erase_instance : atoms (TComp KChain [TScale (TLeaf (BRot RX_ 0 (EVar "x")) (Some "a"%string)) (EVar "y") None; TCtrl false [1%nat] (TLeaf (BPrim PX 0) None) (Some "b"%string)] (Some "FM"%string)).
Proof. cbn. tauto. Qed.
(** The hypotheses of the theorems hold for blocks with tags at several places. *)
Example C88_instance : let b := TComp KChain [TComp KKron [TLeaf (BRot RX_ 0 (EVar "x")) (Some "a"%string); TLeaf (BPrim PZ 1) (Some "a"%string)] (Some "FM"%string); TLeaf (BPrim PX 1) (Some "a"%string)] None in
  let si := nodup Nat.eq_dec in
  length (get_blocks_by_tag "a" b) = 3%nat /\ get_blocks_by_tag "a" (tdagger b) = [TLeaf (BPrim PX 1) (Some "a"%string); TLeaf (BPrim PZ 1) (Some "a"%string)] /\
  (exists r, treassign si (fun q => Some (1 - q)%nat) b = Some r) /\ (exists r, tflatten si [KChain; KKron] b = Some r) /\ (exists r, tscale si None (TScale b (EVar "y") None) = Some r) /\
  exists p, drawn si b = Some p.
Proof. cbv zeta. repeat split; try (eexists; vm_compute; reflexivity). Qed.

Print Assumptions C88_by_tag.
Print Assumptions C88_reassign.
Print Assumptions C88_dagger.
Print Assumptions C88_dagger_refuted.
Print Assumptions C88_flatten.
Print Assumptions C88_flatten_refuted.
Print Assumptions C88_hidden_refuted.
Print Assumptions C88_scale.
Print Assumptions C88_scale_refuted.
Print Assumptions C88_draw.
Print Assumptions C88_draw_refuted.
Print Assumptions C88_erase.
