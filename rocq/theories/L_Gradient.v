(** Lemmas on expectation values as functions of gate parameters. *)
From Coq Require Import String Reals List Arith Bool Lia Lra FunctionalExtensionality Permutation.
From Coquelicot Require Import Coquelicot.
From Coq Require Import List.
From Verif Require Import S_Ops L_Ops M_Block S_Den L_Den L_Loc L_Adj L_ExpMul L_ExpOp L_Diag P_Unitary M_PSR S_PSR P_PSR M_Tensor M_Transpile M_Gradient S_Gradient.
Import ListNotations.
Open Scope R_scope.

(** * Dependence on the values of the parameters that occur *)
Lemma ev_occ rho rho' e : (forall u, In u (evars e) -> rho u = rho' u) -> ev rho e = ev rho' e.
Proof.
  induction e; cbn [evars ev]; intros H; try reflexivity.
  - rewrite (H s (or_introl eq_refl)). reflexivity.
  - rewrite IHe by exact H. reflexivity.
  - rewrite IHe1, IHe2 by (intros; apply H, in_app_iff; auto). reflexivity.
  - rewrite IHe1, IHe2 by (intros; apply H, in_app_iff; auto). reflexivity.
  - rewrite IHe by exact H. reflexivity.
  - rewrite IHe by exact H. reflexivity.
  - rewrite IHe by exact H. reflexivity.
Qed.
Lemma ang_occ rho rho' e : (forall u, In u (evars e) -> rho u = rho' u) -> ang rho e = ang rho' e.
Proof. intros H. unfold ang. rewrite (ev_occ rho rho' e H). reflexivity. Qed.
Lemma den_occ rho rho' b : (forall u, In u (occ b) -> rho u = rho' u) -> den rho b = den rho' b.
Proof.
  induction b as [p q|k br qs|r q e|q a b c|a b|c a b|cs b IH|cs b IH|b e IH|bs IH|bs IH|bs IH|m qs|g t IH] using block_ind'; cbn [occ den]; intros H; try reflexivity.
  - rewrite (ang_occ rho rho' e H). reflexivity.
  - rewrite (ang_occ rho rho' a), (ang_occ rho rho' b), (ang_occ rho rho' c); [reflexivity| | |]; intros; apply H; rewrite !in_app_iff; auto.
  - rewrite (IH H). reflexivity.
  - rewrite (IH H). reflexivity.
  - rewrite (ev_occ rho rho' e), IH; [reflexivity| |]; intros; apply H, in_app_iff; auto.
  - induction IH as [|b bs Hb Hbs IHbs]; [reflexivity|]. cbn [fold_right flat_map] in *. rewrite Hb, IHbs; [reflexivity| |]; intros; apply H, in_app_iff; auto.
  - induction IH as [|b bs Hb Hbs IHbs]; [reflexivity|]. cbn [fold_right flat_map] in *. rewrite Hb, IHbs; [reflexivity| |]; intros; apply H, in_app_iff; auto.
  - induction IH as [|b bs Hb Hbs IHbs]; [reflexivity|]. cbn [fold_right flat_map] in *. rewrite Hb, IHbs; [reflexivity| |]; intros; apply H, in_app_iff; auto.
  - rewrite (ang_occ rho rho' t), IH; [reflexivity| |]; intros; apply H, in_app_iff; auto.
Qed.
Lemma with_same rho u t : with_param rho u t u = t.
Proof. unfold with_param. destruct (string_dec u u); congruence. Qed.
Lemma with_other rho u t v : v <> u -> with_param rho u t v = rho v.
Proof. intros H. unfold with_param. destruct (string_dec v u); congruence. Qed.
Lemma den_without rho u t b : ~ In u (occ b) -> den (with_param rho u t) b = den rho b.
Proof. intros H. apply den_occ. intros v Hv. apply with_other. intros ->. contradiction. Qed.

(** * Exponentials of diagonalisable generators *)
Lemma linear_csum {A} (T : Op) (c : A -> C) (f : A -> St) l : linear T ->
  T (fun x => csum (fun p => (c p * f p x)%C) l) = (fun x => csum (fun p => (c p * T (f p) x)%C) l).
Proof.
  intros L. destruct L as [L1 L2]. induction l as [|p l IH]; cbn [csum].
  - assert (Z : T (fun _ => RtoC 0) = (fun x => (RtoC 0 * T (fun _ => RtoC 0) x)%C)).
    { rewrite <- (L2 (RtoC 0) (fun _ => RtoC 0)). f_equal. extensionality x. ring. }
    rewrite Z. extensionality x. ring.
  - rewrite (L1 (fun x => (c p * f p x)%C) (fun x => csum (fun q => (c q * f q x)%C) l)), IH, L2. reflexivity.
Qed.
Lemma fold_addop (comps : list (R * Op)) psi x : fold_right (fun p k => addop (snd p) k) zeroop comps psi x = csum (fun p : R * Op => snd p psi x) comps.
Proof. induction comps as [|p l IH]; cbn [fold_right csum]; [reflexivity|]. unfold addop at 1. rewrite IH. reflexivity. Qed.
Lemma diag_pow (A : Op) (comps : list (R * Op)) k j psi : linear A ->
  (forall p, In p comps -> seqop (snd p) A = scaleop (RtoC (fst p)) (snd p)) ->
  fold_right (fun p k => addop (snd p) k) zeroop comps = idop ->
  opow (scaleop k A) j psi = (fun x => csum (fun p : R * Op => (cpow (k * RtoC (fst p)) j * snd p psi x)%C) comps).
Proof.
  intros L H E. induction j as [|j IH].
  - cbn [opow cpow]. extensionality x. change (idop psi x = csum (fun p : R * Op => (RtoC 1 * snd p psi x)%C) comps). rewrite <- E, fold_addop.
    apply csum_ext. intros p _. ring.
  - cbn [opow]. unfold seqop at 1. rewrite IH. unfold scaleop at 1. extensionality x.
    transitivity (k * csum (fun p : R * Op => (cpow (k * RtoC (fst p)) j * A (snd p psi) x)%C) comps)%C.
    { f_equal. exact (f_equal (fun f : St => f x) (linear_csum A (fun p => cpow (k * RtoC (fst p))%C j) (fun p : R * Op => snd p psi) comps L)). }
    rewrite <- csum_scal. apply csum_ext. intros p Hp.
    pose proof (f_equal (fun T : Op => T psi x) (H p Hp)) as Q. change (A (snd p psi) x = RtoC (fst p) * snd p psi x)%C in Q. cbv beta.
    transitivity (k * (cpow (k * RtoC (fst p)) j * (RtoC (fst p) * snd p psi x)))%C; [f_equal; f_equal; exact Q|]. cbn [cpow]. ring.
Qed.
Lemma eop_diagonalises fs l A : NoDup fs -> loc (inl fs) A -> diagonalises fs l A ->
  exists comps : list (R * Op), (forall p, In p comps -> In (fst p) l /\ loc (inl fs) (snd p)) /\
    forall (t : R) psi x, eop fs (scaleop (- Ci * RtoC t)%C A) psi x = csum (fun p : R * Op => (cis (- (t * fst p)) * snd p psi x)%C) comps.
Proof.
  intros N HA (comps & H & E). exists comps. split; [intros p Hp; destruct (H p Hp) as (a & b & _); auto|].
  intros t psi x. apply eop_unique; [exact N|constructor; exact HA|].
  apply (cser_ext (fun j => csum (fun p : R * Op => (ifact j * cpow (- Ci * RtoC (t * fst p)) j * snd p psi x)%C) comps)).
  - intros j. rewrite (diag_pow A comps); [|eapply loc_linear; exact HA|intros p Hp; apply (H p Hp)|exact E].
    rewrite <- csum_scal. apply csum_ext. intros p _. rewrite RtoC_mult, Cmult_assoc. ring.
  - apply (cser_csum (fun (p : R * Op) j => (ifact j * cpow (- Ci * RtoC (t * fst p)) j * snd p psi x)%C)). intros p _. apply cser_scal_r, scalar_series.
Qed.

(** * The state as a function of one parameter *)
Definition gapped (G : list R) {A} (comps : list (R * A)) : Prop :=
  forall p q, In p comps -> In q comps -> fst p - fst q = 0 \/ In (Rabs (fst p - fst q)) G.
Definition spectral (rho : env) (u : string) (G : list R) (b : block) : Prop :=
  exists comps : list (R * Op), gapped G comps /\
    forall t psi x, den (with_param rho u t) b psi x = csum (fun p : R * Op => (cis (- (t * fst p / 2)) * snd p psi x)%C) comps.
Lemma gapped_map {A B} G (f : A -> B) (c : list (R * A)) : gapped G c -> gapped G (map (fun p => (fst p, f (snd p))) c).
Proof.
  intros H p q Hp Hq. apply in_map_iff in Hp as (p' & <- & Hp). apply in_map_iff in Hq as (q' & <- & Hq). exact (H p' q' Hp Hq).
Qed.
Lemma spectral_chain rho u G l1 b l2 : spectral rho u G b -> ~ In u (flat_map occ l1) -> ~ In u (flat_map occ l2) -> spectral rho u G (BChain (l1 ++ b :: l2)).
Proof.
  intros (c & H1 & H2) N1 N2. exists (map (fun p => (fst p, seqop (dchain rho l1) (seqop (snd p) (dchain rho l2)))) c). split.
  - apply (gapped_map G (fun A => seqop (dchain rho l1) (seqop A (dchain rho l2)))). exact H1.
  - intros t psi x. rewrite den_chain, dchain_app. change (dchain (with_param rho u t) (b :: l2)) with (seqop (den (with_param rho u t) b) (dchain (with_param rho u t) l2)).
    assert (K : forall l, ~ In u (flat_map occ l) -> dchain (with_param rho u t) l = dchain rho l) by (intros l Hl; exact (den_without rho u t (BChain l) Hl)).
    rewrite (K l1 N1), (K l2 N2). unfold seqop.
    replace (den (with_param rho u t) b (dchain rho l1 psi)) with (fun x => csum (fun p : R * Op => (cis (- (t * fst p / 2)) * snd p (dchain rho l1 psi) x)%C) c) by (extensionality y; symmetry; apply H2).
    rewrite csum_map. cbn [fst snd]. unfold seqop.
    exact (f_equal (fun f : St => f x) (linear_csum (dchain rho l2) (fun p => cis (- (t * fst p / 2))) (fun p : R * Op => snd p (dchain rho l1 psi)) c (dchain_linear rho l2))).
Qed.
Lemma spectral_scale rho u G b e : spectral rho u G b -> ~ In u (evars e) -> spectral rho u G (BScale b e).
Proof.
  intros (c & H1 & H2) N. exists (map (fun p => (fst p, scaleop (ev rho e) (snd p))) c). split.
  - apply (gapped_map G (scaleop (ev rho e))). exact H1.
  - intros t psi x. cbn [den]. unfold scaleop at 1. rewrite H2, csum_map.
    rewrite (ev_occ (with_param rho u t) rho e) by (intros v Hv; apply with_other; intros ->; contradiction).
    rewrite <- csum_scal. apply csum_ext. intros p _. unfold scaleop. cbn [fst snd]. ring.
Qed.
Lemma ang_var rho u : ang rho (EVar u) = rho u.
Proof. reflexivity. Qed.
Lemma gapped_rot {A} r (f g : A) : gapped [2] [(eig_plus r, f); (eig_minus r, g)].
Proof.
  intros p q Hp Hq. destruct Hp as [<- | [<- | []]], Hq as [<- | [<- | []]]; cbn [fst]; [left; ring|right|right|left; ring]; left; destruct r; cbn [eig_plus eig_minus];
    (rewrite Rabs_pos_eq by lra; lra) || (rewrite Rabs_left by lra; lra).
Qed.
Lemma spectral_rot rho u r q : spectral rho u [2] (BRot r q (EVar u)).
Proof.
  exists [(eig_plus r, gate1 q (proj_plus r)); (eig_minus r, gate1 q (proj_minus r))]. split; [apply gapped_rot|].
  intros t psi x. cbn [den]. rewrite ang_var, with_same, rot_spectral, gate1_mlin. unfold addop, scaleop. cbn [csum fst snd]. ring.
Qed.
Lemma cis0 t : cis (- (t * 0 / 2)) = RtoC 1.
Proof. replace (- (t * 0 / 2)) with 0 by field. apply Ceq; simpl; [rewrite cos_0|rewrite sin_0]; reflexivity. Qed.
Lemma spectral_pctrl rho u cs r q : spectral rho u (match r with RPhase => [2] | _ => [1; 2] end) (BPCtrl cs (BRot r q (EVar u))).
Proof.
  assert (E : forall t psi x, den (with_param rho u t) (BPCtrl cs (BRot r q (EVar u))) psi x =
    (coff cs psi x + cis (- (t * eig_plus r / 2)) * con cs (gate1 q (proj_plus r)) psi x + cis (- (t * eig_minus r / 2)) * con cs (gate1 q (proj_minus r)) psi x)%C).
  { intros t psi x. cbn [den]. rewrite ang_var, with_same, rot_spectral, gate1_mlin. unfold ctrlop, coff, con, addop, scaleop. destruct (forallb x cs); ring. }
  destruct r.
  4: { exists [(0, addop (coff cs) (con cs (gate1 q (proj_plus RPhase)))); (-2, con cs (gate1 q (proj_minus RPhase)))]. split; [exact (gapped_rot RPhase _ _)|].
       intros t psi x. rewrite E. cbn [csum fst snd eig_plus eig_minus]. rewrite !cis0. unfold addop. ring. }
  all: match goal with |- context [BRot ?r _ _] => exists [(0, coff cs); (1, con cs (gate1 q (proj_plus r))); (-1, con cs (gate1 q (proj_minus r)))] end.
  all: split; [|intros t psi x; rewrite E; cbn [csum fst snd eig_plus eig_minus]; rewrite ?cis0; ring].
  all: intros p p' Hp Hp'; destruct Hp as [<- | [<- | [<- | []]]], Hp' as [<- | [<- | [<- | []]]]; cbn [fst];
    try (left; ring); right; [left|left|left|right; left|left|right; left];
    (rewrite Rabs_pos_eq by lra; lra) || (rewrite Rabs_left by lra; lra).
Qed.
Lemma spectral_u rho u q e1 e2 e3 : ~ In u (evars e1 ++ evars e2 ++ evars e3) ->
  spectral rho u [2] (BU q (EVar u) e2 e3) /\ spectral rho u [2] (BU q e1 (EVar u) e3) /\ spectral rho u [2] (BU q e1 e2 (EVar u)).
Proof.
  intros N. rewrite !in_app_iff in N.
  assert (K : forall a b c, den rho (BU q a b c) = den rho (BChain [BRot RZ_ q a; BRot RY_ q b; BRot RZ_ q c])) by reflexivity.
  assert (K' : forall a b c G, spectral rho u G (BChain [BRot RZ_ q a; BRot RY_ q b; BRot RZ_ q c]) -> spectral rho u G (BU q a b c)) by (intros a b c G H; exact H).
  repeat split; apply K'.
  - apply (spectral_chain rho u [2] [] _ [_; _]); [apply spectral_rot| |]; cbn [flat_map occ]; rewrite ?in_app_iff; simpl; tauto.
  - apply (spectral_chain rho u [2] [_] _ [_]); [apply spectral_rot| |]; cbn [flat_map occ]; rewrite ?in_app_iff; simpl; tauto.
  - apply (spectral_chain rho u [2] [_; _] _ []); [apply spectral_rot| |]; cbn [flat_map occ]; rewrite ?in_app_iff; simpl; tauto.
Qed.
Lemma spectral_evo rho u g l : ~ In u (occ g) -> (forall x y, In x l -> In y l -> on_grid ((x - y) * 2)) -> diagonalises (uqubits g) l (den rho g) ->
  spectral rho u (spectral_gaps_of (map (fun x => x * 2) l)) (BEvo g (EVar u)).
Proof.
  intros N Hg D. destruct (eop_diagonalises (uqubits g) l (den rho g) (NoDup_nodup _ _) (den_loc_u rho g) D) as (c & H1 & H2).
  exists (map (fun p => (fst p * 2, snd p)) c). split.
  - assert (Hg' : forall x y, In x (map (fun l => l * 2) l) -> In y (map (fun l => l * 2) l) -> on_grid (x - y)).
    { intros x y Hx Hy. apply in_map_iff in Hx as (x' & <- & Hx). apply in_map_iff in Hy as (y' & <- & Hy).
      replace (x' * 2 - y' * 2) with ((x' - y') * 2) by ring. apply Hg; assumption. }
    intros p q Hp Hq. apply in_map_iff in Hp as (p' & <- & Hp). apply in_map_iff in Hq as (q' & <- & Hq). cbn [fst].
    pose proof (gaps_cover (map (fun x => x * 2) l) [(fst p' * 2, fun _ => RtoC 0); (fst q' * 2, fun _ => RtoC 0)] Hg') as GC.
    apply (GC ltac:(intros r [<- | [<- | []]]; apply in_map_iff; [exists (fst p')|exists (fst q')]; (split; [reflexivity|apply H1; assumption])) _ _ (or_introl eq_refl) (or_intror (or_introl eq_refl))).
  - intros t psi x. rewrite den_evo, ang_var, with_same, den_without by exact N. rewrite H2, csum_map. apply csum_ext. intros p _. cbn [fst snd]. f_equal. f_equal. field.
Qed.

(** The expectation is a trigonometric polynomial in the parameter. *)
Lemma expval_trig n psi b obs rho u G : NoDup G -> ~ In u (occ obs) -> spectral rho u G b -> trig G (fun t => expval n psi b obs (with_param rho u t)).
Proof.
  intros N No (c & H1 & H2). eapply trig_ext; [|apply (expectation_trig n (matof (seq 0 n) (den rho obs)) (map (fun p => (fst p, amps n (snd p psi))) c) G N)].
  - intro t. unfold expectation, expval. rewrite den_without by exact No. do 2 f_equal. extensionality r. unfold evolved, amps. rewrite csum_map, H2. reflexivity.
  - apply (gapped_map G (fun A => amps n (A psi))). exact H1.
Qed.
