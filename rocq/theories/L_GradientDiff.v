(** Expectation values are differentiable functions of all gate parameters together. *)
From Coq Require Import String Reals List Arith Bool Lia Lra FunctionalExtensionality Permutation.
From Coquelicot Require Import Coquelicot.
From Coq Require Import List.
From Verif Require Import S_Ops L_Ops M_Block S_Den L_Den L_Loc L_Adj L_ExpMul L_ExpOp L_Diag P_Unitary M_PSR S_PSR P_PSR M_Tensor M_Transpile M_Gradient S_Gradient L_Gradient.
Import ListNotations.
Open Scope R_scope.

(** The circuits the rules are meant for.  [needs] tells which parameters are differentiated, [rho0] holds the values of the others. *)
Section Supported.
  Variable eigvals : block -> list R.
  Variable needs : string -> bool.
  Variable rho0 : env.
  Inductive supported : block -> Prop :=
  | sup_prim p q : supported (BPrim p q)
  | sup_proj k b qs : supported (BProj k b qs)
  | sup_swap a b : supported (BSwap a b)
  | sup_cswap c a b : supported (BCSwap c a b)
  | sup_ctrl cs p q : supported (BCtrl cs (BPrim p q))
  | sup_mat m qs : supported (BMat m qs)
  | sup_rot r q u : supported (BRot r q (EVar u))
  | sup_u q u1 u2 u3 : supported (BU q (EVar u1) (EVar u2) (EVar u3))
  | sup_pctrl cs r q u : cs <> [] -> supported (BPCtrl cs (BRot r q (EVar u)))
  | sup_scale b e : (forall u, In u (evars e) -> needs u = false) -> supported b -> supported (BScale b e)
  | sup_chain bs : (forall b, In b bs -> supported b) -> supported (BChain bs)
  | sup_kron bs : (forall b, In b bs -> supported b) -> supported (BKron bs)
  | sup_evo g u : (forall v, In v (occ g) -> needs v = false) ->
      (needs u = true -> (forall x y, In x (eigvals g) -> In y (eigvals g) -> on_grid ((x - y) * 2)) /\ diagonalises (uqubits g) (eigvals g) (den rho0 g)) ->
      supported (BEvo g (EVar u)).
  (** Dictionaries that differ only in the parameters that are differentiated. *)
  Definition agrees (rho : env) : Prop := forall u, needs u = false -> rho u = rho0 u.
End Supported.

Section Diff.
  Variable needs : string -> bool.
  Variable rho0 : env.
  Variable U : list string.
  Hypothesis NU : NoDup U.
  Notation ok := (agrees needs rho0).

  Definition total (D : string -> env -> R) (rho : env) (dp : string -> R) : R := rsum (map (fun u => D u rho * dp u) U).
  Definition Diff (F : env -> R) : Prop := exists D, forall (p : R -> env) (th : R) (dp : string -> R), (forall s, ok (p s)) -> (forall u, In u U -> is_derive (fun s => p s u) th (dp u)) ->
    is_derive (fun s => F (p s)) th (total D (p th) dp).
  Lemma Diff_ext F G : (forall rho, ok rho -> F rho = G rho) -> Diff F -> Diff G.
  Proof. intros H [D HD]. exists D. intros p th dp Hp Hd. apply (is_derive_ext (fun s => F (p s))); [intro s; apply H, Hp|]. apply HD; assumption. Qed.
  Lemma Diff_const c : Diff (fun _ => c).
  Proof.
    exists (fun _ _ => 0). intros p th dp _ _. unfold total. rewrite rsum_zero; [apply @is_derive_const|]. intros; ring.
  Qed.
  Lemma Diff_plus F G : Diff F -> Diff G -> Diff (fun r => F r + G r).
  Proof.
    intros [D HD] [D' HD']. exists (fun u r => D u r + D' u r). intros p th dp Hp Hd.
    replace (total (fun u r => D u r + D' u r) (p th) dp) with (total D (p th) dp + total D' (p th) dp).
    - apply @is_derive_plus; [apply HD|apply HD']; assumption.
    - unfold total. rewrite <- rsum_plus. apply rsum_ext. intros; ring.
  Qed.
  Lemma Diff_mult F G : Diff F -> Diff G -> Diff (fun r => F r * G r).
  Proof.
    intros [D HD] [D' HD']. exists (fun u r => D u r * G r + F r * D' u r). intros p th dp Hp Hd.
    replace (total (fun u r => D u r * G r + F r * D' u r) (p th) dp) with (total D (p th) dp * G (p th) + F (p th) * total D' (p th) dp).
    - pose proof (is_derive_mult (fun s => F (p s)) (fun s => G (p s)) th _ _ (HD p th dp Hp Hd) (HD' p th dp Hp Hd) Rmult_comm) as M. exact M.
    - unfold total. rewrite (Rmult_comm (rsum _) (G (p th))), <- !rsum_scal, <- rsum_plus. apply rsum_ext. intros; ring.
  Qed.
  Lemma Diff_opp F : Diff F -> Diff (fun r => - F r).
  Proof. intros H. apply (Diff_ext (fun r => -1 * F r)); [intros; ring|]. apply Diff_mult; [apply Diff_const|exact H]. Qed.
  Lemma Diff_minus F G : Diff F -> Diff G -> Diff (fun r => F r - G r).
  Proof. intros H K. apply (Diff_ext (fun r => F r + - G r)); [intros; ring|]. apply Diff_plus; [exact H|apply Diff_opp, K]. Qed.
  Lemma rsum_single (f : string -> R) l u : NoDup l -> In u l -> (forall v, In v l -> v <> u -> f v = 0) -> rsum (map f l) = f u.
  Proof.
    induction 1 as [|v l Hv Hn IH]; intros Hu Hz; [destruct Hu|]. cbn [map rsum]. destruct Hu as [->|Hu].
    - rewrite rsum_zero; [ring|]. intros w Hw. apply Hz; [right; exact Hw|]. intros ->. contradiction.
    - rewrite IH; [|exact Hu|intros; apply Hz; [right|]; assumption]. rewrite Hz; [ring|left; reflexivity|]. intros ->. contradiction.
  Qed.
  (** A differentiable function of one parameter. *)
  Lemma Diff_coord (f f' : R -> R) u : (In u U \/ needs u = false) -> (forall t, is_derive f t (f' t)) -> Diff (fun r => f (r u)).
  Proof.
    intros [Hu|Hu] Hf.
    - exists (fun v r => if string_dec v u then f' (r u) else 0). intros p th dp Hp Hd.
      match goal with |- is_derive _ _ ?x => replace x with (dp u * f' (p th u)) end.
      + exact (is_derive_comp f (fun s => p s u) th _ _ (Hf (p th u)) (Hd u Hu)).
      + unfold total. rewrite (rsum_single _ U u NU Hu).
        * destruct (string_dec u u); [ring|congruence].
        * intros v _ Hv. destruct (string_dec v u); [congruence|ring].
    - apply (Diff_ext (fun _ => f (rho0 u))); [|apply Diff_const]. intros rho Hr. rewrite (Hr u Hu). reflexivity.
  Qed.
  Lemma Diff_cos k u : (In u U \/ needs u = false) -> Diff (fun r => cos (k * r u)).
  Proof. intros H. apply (Diff_coord (fun t => cos (k * t)) (fun t => - k * sin (k * t)) u H). intros t. auto_derive; [exact I|]. match goal with |- ?a = ?b => change (@eq R a b) end. ring. Qed.
  Lemma Diff_sin k u : (In u U \/ needs u = false) -> Diff (fun r => sin (k * r u)).
  Proof. intros H. apply (Diff_coord (fun t => sin (k * t)) (fun t => k * cos (k * t)) u H). intros t. auto_derive; [exact I|]. match goal with |- ?a = ?b => change (@eq R a b) end. ring. Qed.

  Definition DiffC (F : env -> C) : Prop := Diff (fun r => fst (F r)) /\ Diff (fun r => snd (F r)).
  Lemma DiffC_ext F G : (forall rho, ok rho -> F rho = G rho) -> DiffC F -> DiffC G.
  Proof. intros H [A B]. split; [eapply Diff_ext; [|exact A]|eapply Diff_ext; [|exact B]]; intros rho Hr; cbv beta; rewrite (H rho Hr); reflexivity. Qed.
  Lemma DiffC_const c : DiffC (fun _ => c).
  Proof. split; apply Diff_const. Qed.
  Lemma DiffC_plus F G : DiffC F -> DiffC G -> DiffC (fun r => (F r + G r)%C).
  Proof. intros [A B] [A' B']. split; cbn [fst snd Cplus]; apply Diff_plus; assumption. Qed.
  Lemma DiffC_mult F G : DiffC F -> DiffC G -> DiffC (fun r => (F r * G r)%C).
  Proof. intros [A B] [A' B']. split; cbn [fst snd Cmult]; [apply Diff_minus|apply Diff_plus]; apply Diff_mult; assumption. Qed.
  Lemma DiffC_opp F : DiffC F -> DiffC (fun r => (- F r)%C).
  Proof. intros [A B]. split; cbn [fst snd Copp]; apply Diff_opp; assumption. Qed.
  Lemma DiffC_conj F : DiffC F -> DiffC (fun r => Cconj (F r)).
  Proof. intros [A B]. split; cbn [fst snd Cconj]; [exact A|apply Diff_opp, B]. Qed.
  Lemma DiffC_real F : Diff F -> DiffC (fun r => RtoC (F r)).
  Proof. intros H. split; [exact H|]. exact (Diff_const 0). Qed.
  Lemma DiffC_csum {A} (F : A -> env -> C) l : (forall a, In a l -> DiffC (F a)) -> DiffC (fun r => csum (fun a => F a r) l).
  Proof.
    induction l as [|a l IH]; intros H; cbn [csum]; [apply DiffC_const|]. apply DiffC_plus; [apply H; left; reflexivity|]. apply IH. intros; apply H; right; assumption.
  Qed.
  Lemma DiffC_cis k u : (In u U \/ needs u = false) -> DiffC (fun r => cis (k * r u)).
  Proof. intros H. split; cbn [cis fst snd]; [apply Diff_cos|apply Diff_sin]; exact H. Qed.

  (** States whose amplitudes are differentiable. *)
  Definition DiffS (Psi : env -> St) : Prop := forall x, DiffC (fun r => Psi r x).
  Lemma DiffS_ext P Q : (forall rho, ok rho -> P rho = Q rho) -> DiffS P -> DiffS Q.
  Proof. intros H K x. eapply DiffC_ext; [|apply (K x)]. intros rho Hr. cbv beta. rewrite (H rho Hr). reflexivity. Qed.
  Lemma DiffS_gate qs (M : env -> bmat) Psi : (forall a b, DiffC (fun r => M r a b)) -> DiffS Psi -> DiffS (fun r => gate qs (M r) (Psi r)).
  Proof. intros HM HP x. unfold gate. apply (DiffC_csum (fun y r => (M r (map x qs) y * Psi r (upds x qs y))%C)). intros y _. exact (DiffC_mult (fun r => M r (map x qs) y) (fun r => Psi r (upds x qs y)) (HM _ _) (HP _)). Qed.
  Lemma DiffS_gate1 q (m : env -> bool -> bool -> C) Psi : (forall a b, DiffC (fun r => m r a b)) -> DiffS Psi -> DiffS (fun r => gate1 q (m r) (Psi r)).
  Proof.
    intros Hm HP. unfold gate1. apply (DiffS_gate [q] (fun r => of_mat2 (m r))); [|exact HP]. intros a b. unfold of_mat2.
    destruct a as [|a [|? ?]]; [exact (DiffC_const 0)| |exact (DiffC_const 0)]. destruct b as [|b [|? ?]]; [exact (DiffC_const 0)| |exact (DiffC_const 0)]. exact (Hm a b).
  Qed.
  Lemma DiffS_fixed qs M Psi : DiffS Psi -> DiffS (fun r => gate qs M (Psi r)).
  Proof. intros H. apply (DiffS_gate qs (fun _ => M)); [intros a b; exact (DiffC_const (M a b))|exact H]. Qed.
  Lemma DiffS_loc fs T Psi : NoDup fs -> loc (inl fs) T -> DiffS Psi -> DiffS (fun r => T (Psi r)).
  Proof. intros N HT H. rewrite (loc_gate_eq fs T N HT). exact (DiffS_fixed fs _ Psi H). Qed.
  Lemma DiffS_ctrl cs (T : env -> Op) Psi : DiffS (fun r => T r (Psi r)) -> DiffS Psi -> DiffS (fun r => ctrlop cs (T r) (Psi r)).
  Proof. intros H K x. unfold ctrlop. destruct (forallb x cs); [exact (H x)|exact (K x)]. Qed.
  Lemma DiffC_rot k u a b : (In u U \/ needs u = false) -> DiffC (fun r => rot_mat k (r u) a b).
  Proof.
    intros H.
    assert (C2 : DiffC (fun r => RtoC (cos (r u / 2)))). { apply DiffC_real. eapply Diff_ext; [|apply (Diff_cos (/ 2) u H)]. intros r _. cbv beta. f_equal. field. }
    assert (S2 : DiffC (fun r => RtoC (sin (r u / 2)))). { apply DiffC_real. eapply Diff_ext; [|apply (Diff_sin (/ 2) u H)]. intros r _. cbv beta. f_equal. field. }
    assert (I1 : DiffC (fun r => cis (r u / 2))). { eapply DiffC_ext; [|apply (DiffC_cis (/ 2) u H)]. intros r _. cbv beta. f_equal. field. }
    assert (I2 : DiffC (fun r => cis (- (r u / 2)))). { eapply DiffC_ext; [|apply (DiffC_cis (- / 2) u H)]. intros r _. cbv beta. f_equal. field. }
    assert (I3 : DiffC (fun r => cis (r u))). { eapply DiffC_ext; [|apply (DiffC_cis 1 u H)]. intros r _. cbv beta. f_equal. ring. }
    destruct k, a, b; cbn [rot_mat mat2]; first [exact C2 | exact I1 | exact I2 | exact I3 | exact S2 | exact (DiffC_const 0) | exact (DiffC_const 1) | exact (DiffC_opp _ S2) | exact (DiffC_mult _ _ (DiffC_const (- Ci)%C) S2)].
  Qed.
  Lemma DiffS_rot k q u Psi : (In u U \/ needs u = false) -> DiffS Psi -> DiffS (fun r => gate1 q (rot_mat k (r u)) (Psi r)).
  Proof. intros H K. apply (DiffS_gate1 q (fun r => rot_mat k (r u))); [intros a b; exact (DiffC_rot k u a b H)|exact K]. Qed.

  Lemma den_diff eigvals b : supported eigvals needs rho0 b -> (forall u, In u (occ b) -> needs u = true -> In u U) ->
    forall Psi, DiffS Psi -> DiffS (fun r => den r b (Psi r)).
  Proof.
    intros S. assert (Hc : forall u l, In u l -> (forall u, In u l -> needs u = true -> In u U) -> In u U \/ needs u = false).
    { intros u l Hu H. destruct (needs u) eqn:E; [left; apply H; assumption|right; reflexivity]. }
    induction S as [p q|k b qs|a b|c a b|cs p q|m qs|r q u|q u1 u2 u3|cs r q u Hcs|b e He Hb IH|bs Hb IH|bs Hb IH|g u Hg Hd]; cbn [occ den]; intros HU Psi HP.
    - unfold gate1. exact (DiffS_fixed _ _ Psi HP).
    - exact (DiffS_fixed _ _ Psi HP).
    - intros x. exact (HP _).
    - apply (DiffS_ctrl [c] (fun _ => swapop a b)); [|exact HP]. intros x. exact (HP _).
    - apply (DiffS_ctrl cs (fun _ => gate1 q (prim_mat p))); [|exact HP]. unfold gate1. exact (DiffS_fixed _ _ Psi HP).
    - exact (DiffS_fixed _ _ Psi HP).
    - apply (DiffS_rot r q u Psi); [|exact HP]. apply (Hc u [u] (or_introl eq_refl) HU).
    - unfold seqop. cbn [evars app] in HU.
      apply (DiffS_rot RZ_ q u3 (fun r => gate1 q (rot_mat RY_ (r u2)) (gate1 q (rot_mat RZ_ (r u1)) (Psi r)))); [apply (Hc u3 [u1; u2; u3] ltac:(simpl; auto) HU)|].
      apply (DiffS_rot RY_ q u2 (fun r => gate1 q (rot_mat RZ_ (r u1)) (Psi r))); [apply (Hc u2 [u1; u2; u3] ltac:(simpl; auto) HU)|].
      apply (DiffS_rot RZ_ q u1 Psi); [apply (Hc u1 [u1; u2; u3] ltac:(simpl; auto) HU)|exact HP].
    - apply (DiffS_ctrl cs (fun rr => gate1 q (rot_mat r (rr u)))); [|exact HP]. apply (DiffS_rot r q u Psi); [|exact HP]. apply (Hc u [u] (or_introl eq_refl) HU).
    - intros x. unfold scaleop. apply DiffC_mult; [|apply IH; [intros; apply HU; [apply in_app_iff; auto|assumption]|exact HP]].
      apply (DiffC_ext (fun _ => ev rho0 e)); [|apply DiffC_const]. intros rho Hr. symmetry. apply ev_occ. intros u Hu. apply Hr, He, Hu.
    - revert Psi HP. induction bs as [|b bs IHbs]; intros Psi HP; cbn [fold_right]; [exact HP|]. unfold seqop at 1. cbn [flat_map] in HU.
      apply (IHbs (fun b' H' => Hb b' (or_intror H')) (fun b' H' => IH b' (or_intror H'))); [intros u Hu; apply HU, in_app_iff; auto|].
      apply (IH b (or_introl eq_refl)); [intros u Hu; apply HU, in_app_iff; auto|exact HP].
    - revert Psi HP. induction bs as [|b bs IHbs]; intros Psi HP; cbn [fold_right]; [exact HP|]. unfold seqop at 1. cbn [flat_map] in HU.
      apply (IHbs (fun b' H' => Hb b' (or_intror H')) (fun b' H' => IH b' (or_intror H'))); [intros u Hu; apply HU, in_app_iff; auto|].
      apply (IH b (or_introl eq_refl)); [intros u Hu; apply HU, in_app_iff; auto|exact HP].
    - change (DiffS (fun r => den r (BEvo g (EVar u)) (Psi r))).
      assert (Eg : forall rho, ok rho -> den rho g = den rho0 g) by (intros rho Hr; apply den_occ; intros v Hv; apply Hr, Hg, Hv).
      destruct (needs u) eqn:Nu.
      + destruct (Hd eq_refl) as [_ D]. destruct (eop_diagonalises (uqubits g) (eigvals g) (den rho0 g) (NoDup_nodup _ _) (den_loc_u rho0 g) D) as (c & H1 & H2).
        intros x. apply (DiffC_ext (fun r => csum (fun p : R * Op => (cis (- fst p * r u) * snd p (Psi r) x)%C) c)).
        * intros rho Hr. rewrite den_evo, ang_var, (Eg rho Hr), H2. apply csum_ext. intros p _. f_equal. f_equal. ring.
        * apply (DiffC_csum (fun (p : R * Op) r => (cis (- fst p * r u) * snd p (Psi r) x)%C)). intros p Hp. apply DiffC_mult.
          -- apply DiffC_cis. left. apply HU; [apply in_app_iff; right; left; reflexivity|exact Nu].
          -- apply (DiffS_loc (uqubits g) (snd p) Psi (NoDup_nodup _ _)); [apply H1, Hp|exact HP].
      + apply (DiffS_ext (fun r => den rho0 (BEvo g (EVar u)) (Psi r))).
        * intros rho Hr. rewrite !den_evo, !ang_var, (Eg rho Hr), (Hr u Nu). reflexivity.
        * apply (DiffS_loc (uqubits g) _ Psi (NoDup_nodup _ _)); [|exact HP]. rewrite den_evo. apply loc_eop.
  Qed.

  Lemma expval_diff eigvals n psi b obs : supported eigvals needs rho0 b -> (forall u, In u (occ b) -> needs u = true -> In u U) ->
    (forall u, In u (occ obs) -> needs u = false) -> Diff (expval n psi b obs).
  Proof.
    intros S HU Ho. apply (Diff_ext (fun r => fst (quad n (matof (seq 0 n) (den rho0 obs)) (amps n (den r b psi))))).
    - intros rho Hr. unfold expval. rewrite (den_occ rho rho0 obs); [reflexivity|]. intros u Hu. apply Hr, Ho, Hu.
    - pose proof (den_diff eigvals b S HU (fun _ => psi) (fun x => DiffC_const (psi x))) as H.
      set (O := matof (seq 0 n) (den rho0 obs)).
      assert (Ha : forall k, DiffC (fun r => amps n (den r b psi) k)) by (intros k; exact (H (upds zeros (seq 0 n) k))).
      assert (Q : DiffC (fun r => csum (fun r0 => csum (fun c => (Cconj (amps n (den r b psi) r0) * O r0 c * amps n (den r b psi) c)%C) (bits n)) (bits n))).
      { apply (DiffC_csum (fun r0 (r : env) => csum (fun c => (Cconj (amps n (den r b psi) r0) * O r0 c * amps n (den r b psi) c)%C) (bits n)) (bits n)).
        intros r0 _. apply (DiffC_csum (fun c (r : env) => (Cconj (amps n (den r b psi) r0) * O r0 c * amps n (den r b psi) c)%C) (bits n)). intros c _.
        exact (DiffC_mult _ _ (DiffC_mult _ _ (DiffC_conj _ (Ha r0)) (DiffC_const (O r0 c))) (Ha c)). }
      exact (proj1 Q).
  Qed.

  Lemma Diff_scal w F : Diff F -> Diff (fun r => w * F r).
  Proof. intros H. apply Diff_mult; [apply Diff_const|exact H]. Qed.
  Lemma Diff_rsum {A} (F : A -> env -> R) l : (forall a, In a l -> Diff (F a)) -> Diff (fun r => rsum (map (fun a => F a r) l)).
  Proof. induction l as [|a l IH]; intros H; cbn [map rsum]; [apply Diff_const|]. apply Diff_plus; [apply H; left; reflexivity|apply IH; intros; apply H; right; assumption]. Qed.

  (** The total derivative along a curve is determined by the partial derivatives. *)
  Lemma agrees_with rho u t : ok rho -> needs u = true -> ok (with_param rho u t).
  Proof. intros H Hu v Hv. rewrite with_other; [apply H, Hv|]. intros ->. congruence. Qed.
  Lemma chain_rule F (d : string -> R) (p : R -> env) (th : R) (dp : string -> R) : Diff F -> (forall s, ok (p s)) -> (forall u, In u U -> needs u = true) ->
    (forall u, In u U -> is_derive (fun s => p s u) th (dp u)) ->
    (forall u, In u U -> is_derive (fun t => F (with_param (p th) u t)) (p th u) (d u)) ->
    is_derive (fun s => F (p s)) th (rsum (map (fun u => d u * dp u) U)).
  Proof.
    intros [D HD] Hp Hn Hdp Hd. replace (rsum (map (fun u => d u * dp u) U)) with (total D (p th) dp); [apply HD; assumption|].
    unfold total. apply rsum_ext. intros u Hu. f_equal.
    pose proof (HD (fun t => with_param (p th) u t) (p th u) (fun v => if string_dec v u then 1 else 0) ltac:(intros s; apply agrees_with; [apply Hp|apply Hn, Hu])) as P.
    assert (Q : forall v, In v U -> is_derive (fun s => with_param (p th) u s v) (p th u) (if string_dec v u then 1 else 0)).
    { intros v _. destruct (string_dec v u) as [->|N].
      - apply (is_derive_ext (fun s => s)); [intro s; symmetry; apply with_same|]. apply @is_derive_id.
      - apply (is_derive_ext (fun _ => p th v)); [intro s; symmetry; apply with_other, N|]. apply @is_derive_const. }
    specialize (P Q). pose proof (is_derive_unique _ _ _ P) as E1. pose proof (is_derive_unique _ _ _ (Hd u Hu)) as E2. rewrite E1 in E2.
    rewrite <- E2. unfold total. rewrite (rsum_single _ U u NU Hu).
    - destruct (string_dec u u); [|congruence].
      replace (with_param (p th) u (p th u)) with (p th); [ring|]. extensionality v. unfold with_param. destruct (string_dec v u); [subst|]; reflexivity.
    - intros v _ Hv. destruct (string_dec v u); [congruence|ring].
  Qed.
End Diff.
