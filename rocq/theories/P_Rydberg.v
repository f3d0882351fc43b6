(** C53: analog blocks are translated into the evolution under the Rydberg Hamiltonian of the device. *)
From Coq Require Import String Reals List Arith Bool Lia Lra FunctionalExtensionality Permutation.
From Coquelicot Require Import Coquelicot.
From Coq Require Import List.
From Verif Require M_Register M_Addressing M_Analog L_QubitSupport P_Addressing.
From Verif Require Import S_Transpile L_Transpile S_Sets S_Ops L_Ops M_QubitSupport M_Block S_Den L_Den L_Loc L_Adj L_Gates M_BlockOps M_Tensor M_Transpile L_Support
  L_Exp L_ExpMul L_ExpOp L_PauliExp S_PSR P_PSR S_State L_Inner P_States P_Unitary P_Operators P_Qft L_Diag M_Hamiltonians P_Hamiltonians P_Hea P_Decompose
  P_Serialize M_Rydberg.
Import ListNotations.
Open Scope R_scope.
Open Scope C_scope.

(** * Specification *)
Definition sum_of {A} (l : list A) (f : A -> Op) : Op := fold_right (fun a K => addop (f a) K) zeroop l.
Definition X_ (q : nat) : Op := gate1 q (prim_mat PX).
Definition Y_ (q : nat) : Op := gate1 q (prim_mat PY).
Definition N_ (q : nat) : Op := gate1 q (prim_mat (PN true)).

(** Sum over i < j of C / R_ij^6 n_i n_j, or of C / R_ij^3 (X_i X_j + Y_i Y_j). *)
Definition pair_term (k : coupling) (c : R) (a b : nat * M_Register.point) : Op :=
  let rij := M_Register.dist (snd a) (snd b) in
  match k with
  | NN => scaleop (RtoC (c / rij ^ 6)) (seqop (N_ (fst a)) (N_ (fst b)))
  | XY => scaleop (RtoC (c / rij ^ 3)) (addop (seqop (X_ (fst a)) (X_ (fst b))) (seqop (Y_ (fst a)) (Y_ (fst b))))
  end.
Definition H_int (k : coupling) (c : R) (r : M_Register.register) : Op :=
  sum_of r (fun a => sum_of r (fun b => if Nat.ltb (fst a) (fst b) then pair_term k c a b else zeroop)).
(** Sum over the driven qubits of omega/2 (cos phi X - sin phi Y) - delta n. *)
Definition H_drive (omega delta phase : R) (qs : list nat) : Op :=
  sum_of qs (fun q => addop (scaleop (RtoC (omega / 2 * cos phase)) (X_ q))
                     (addop (scaleop (RtoC (- (omega / 2 * sin phase))) (Y_ q)) (scaleop (RtoC (- delta)) (N_ q)))).
(** Sum over the qubits of a_q/2 X - d_q n, with the amplitude and the detuning that the pattern gives to each qubit. *)
Definition val (o : option R) : R := match o with Some v => v | None => 0%R end.
Definition H_pattern (p : M_Addressing.pattern) (n : nat) : Op :=
  sum_of (seq 0 n) (fun q => addop (scaleop (RtoC (val (M_Addressing.qubit_amp p q) / 2)) (X_ q))
                                   (scaleop (RtoC (- val (M_Addressing.qubit_det p q))) (N_ q))).
Definition H_background (d : device) (c : R) (r : M_Register.register) (ap : bool) : Op :=
  addop (H_int (d_coupling d) c r)
        (match d_pattern d with Some p => if ap then H_pattern p (length r) else zeroop | None => zeroop end).
Definition driven (r : M_Register.register) (s : support) : list nat := match s with SGlobal => map fst r | SLocal l => l end.

(** [E] is exp(-i t H): the exponential series applied to a state converges to [E] of the state, at every basis state. *)
Fixpoint power (A : Op) (k : nat) (psi : St) : St := match k with O => psi | S j => A (power A j psi) end.
Definition evolves (H : Op) (t : R) (E : Op) : Prop := forall psi x,
  let term k := RtoC (/ INR (fact k)) * power (scaleop (- Ci * RtoC t) H) k psi x in
  is_series (fun k => fst (term k)) (fst (E psi x)) /\ is_series (fun k => snd (term k)) (snd (E psi x)).

(** The operator of a circuit with analog blocks on a register.  The rotations of an AnalogKron run one after the other. *)
Section Means.
  Variables (rho : env) (d : device) (c : R) (r : M_Register.register).
  Definition drives (dur om de ph : R) (s : support) (ap : bool) (E : Op) : Prop :=
    evolves (addop (H_background d c r ap) (H_drive om de ph (driven r s))) (dur / 1000) E.
  Fixpoint means (t : tree) (E : Op) : Prop :=
    match t with
    | TInt dur _ ap => evolves (H_background d c r ap) (dur / 1000) E
    | TRot dur om de ph s ap => drives dur om de ph s ap E
    | TLeaf b => E = den rho b
    | TAChain bs | TChain bs | TKron bs =>
        (fix go bs E := match bs with [] => E = idop | b :: bs' => exists A B, means b A /\ go bs' B /\ E = seqop A B end) bs E
    | TAdd bs =>
        (fix go bs E := match bs with [] => E = zeroop | b :: bs' => exists A B, means b A /\ go bs' B /\ E = addop A B end) bs E
    | TAKron bs =>
        (fix go bs E := match bs with
                        | [] => E = idop
                        | TRot dur om de ph s ap :: bs' => exists A B, drives dur om de ph s ap A /\ go bs' B /\ E = seqop A B
                        | _ :: bs' => go bs' E end) bs E
    end.
End Means.
Definition strength_of (c6_dict : nat -> option R) (d : device) : option R :=
  match d_coupling d with NN => c6_dict (d_level d) | XY => Some (d_coeff_xy d) end.

(** * Proofs *)
Lemma power_opow A k psi : power A k psi = opow A k psi.
Proof. induction k as [|k IH]; cbn [power opow]; [reflexivity|]. unfold seqop. rewrite IH. reflexivity. Qed.
Lemma evolves_eop fs H t : NoDup fs -> loc (inl fs) H -> evolves H t (eop fs (scaleop (- Ci * RtoC t) H)).
Proof.
  intros N L psi x. cbv zeta. assert (S := eop_series fs (scaleop (- Ci * RtoC t) H) psi x N (loc_scale _ _ _ L)).
  destruct (cser_ext _ (fun k => RtoC (/ INR (fact k)) * power (scaleop (- Ci * RtoC t) H) k psi x) _ (fun k => eq_trans eq_refl (f_equal (fun z => ifact k * z) (f_equal (fun f => f x) (eq_sym (power_opow _ k psi))))) S) as [S1 S2].
  split; assumption.
Qed.
Lemma evolves_unique H t E E' : evolves H t E -> evolves H t E' -> E = E'.
Proof.
  intros A B. extensionality psi. extensionality x. destruct (A psi x) as [A1 A2], (B psi x) as [B1 B2].
  apply (cser_unique (fun k => RtoC (/ INR (fact k)) * power (scaleop (- Ci * RtoC t) H) k psi x)); split; assumption.
Qed.
Lemma evolves_den rho g t : evolves (den rho g) (ang rho t) (den rho (BEvo g t)).
Proof. rewrite den_evo. apply evolves_eop; [apply NoDup_nodup|apply den_loc_u]. Qed.

Lemma sum_of_app {A} (l m : list A) f : sum_of (l ++ m) f = addop (sum_of l f) (sum_of m f).
Proof. unfold sum_of. induction l as [|a l IH]; simpl; [rewrite addop_zero_l; reflexivity|]. rewrite IH, addop_assoc. reflexivity. Qed.
Lemma sum_of_ext {A} (l : list A) f g : (forall a, In a l -> f a = g a) -> sum_of l f = sum_of l g.
Proof. intros H. unfold sum_of. induction l as [|a l IH]; simpl; [reflexivity|]. rewrite (H a (or_introl eq_refl)), IH; [reflexivity|]. intros b I. apply H. right. exact I. Qed.
Lemma sum_of_val {A} (l : list A) f psi x : sum_of l f psi x = csum (fun a => f a psi x) l.
Proof. unfold sum_of. induction l as [|a l IH]; simpl; [reflexivity|]. unfold addop at 1. rewrite IH. reflexivity. Qed.
Lemma sum_of_map {A B} (g : A -> B) l f : sum_of (map g l) f = sum_of l (fun a => f (g a)).
Proof. unfold sum_of. induction l as [|a l IH]; simpl; [reflexivity|]. rewrite IH. reflexivity. Qed.
Lemma dadd_sum rho bs : den rho (BAdd bs) = sum_of bs (den rho).
Proof. reflexivity. Qed.
Lemma sum_of_scale {A} k (l : list A) f : scaleop k (sum_of l f) = sum_of l (fun a => scaleop k (f a)).
Proof. extensionality psi. extensionality x. unfold scaleop at 1. rewrite !sum_of_val. unfold scaleop. rewrite csum_scal. reflexivity. Qed.
Lemma sum_of_add {A} (l : list A) f g : addop (sum_of l f) (sum_of l g) = sum_of l (fun a => addop (f a) (g a)).
Proof. extensionality psi. extensionality x. unfold addop at 1. rewrite !sum_of_val, <- csum_plus. reflexivity. Qed.

(** The drive. *)
Theorem C53_drive : forall omega delta phase s r rho,
  den rho (rydberg_drive_hamiltonian omega delta phase s r) = H_drive omega delta phase (driven r s).
Proof.
  intros om de ph s r rho. unfold rydberg_drive_hamiltonian. cbv zeta. fold (driven r s).
  change (match s with SLocal l => l | SGlobal => M_Register.support r end) with (driven r s). generalize (driven r s). intros qs.
  rewrite !C05_sub, !C05_scale, !dadd_sum, !sum_of_map, !sum_of_scale, !sum_of_add. unfold H_drive. apply sum_of_ext. intros q _.
  rewrite !C05_scale. cbn [ev num den]. rewrite !scaleop_scale. extensionality psi. extensionality x. unfold addop, scaleop, X_, Y_, N_.
  rewrite !RtoC_opp, !RtoC_mult. ring.
Qed.

Lemma ev_num rho x : ev rho (num x) = RtoC x.
Proof. reflexivity. Qed.
Lemma proj_N q : scaleop (RtoC (1 / 2)) (addop (gate1 q (prim_mat PI_)) (scaleop (- (1)) (gate1 q (prim_mat PZ)))) = N_ q.
Proof.
  unfold N_. rewrite n_rdiag, z_rdiag. rewrite (gate1_id q (prim_mat PI_)) by (intros [|] [|]; reflexivity). rewrite <- rdiag_id.
  replace (- (1)) with (RtoC (-1)) by (apply Ceq; simpl; ring). rewrite rdiag_scale, rdiag_add, rdiag_scale. apply rdiag_ext. intros x. rewrite b2r_zs. field.
Qed.
Lemma den_scale_sum rho bs x : den rho (BScale (BAdd bs) (num x)) = scaleop (RtoC x) (sum_of bs (den rho)).
Proof. reflexivity. Qed.
(** The addressing pattern. *)
Theorem C53_pattern : forall p r h, rydberg_pattern_hamiltonian p r = Some h -> forall rho, den rho h = H_pattern p (length r).
Proof.
  intros p r h E rho. unfold rydberg_pattern_hamiltonian in E. cbv zeta in E.
  match type of E with obind (osequence (map ?f ?l)) _ = _ => destruct (osequence (map f l)) as [xs|] eqn:Ex; [|discriminate]; pose (fx := f) end. cbn [obind] in E.
  match type of E with obind (osequence (map ?f ?l)) _ = _ => destruct (osequence (map f l)) as [zs|] eqn:Ez; [|discriminate]; pose (fz := f) end. cbn [obind] in E. injection E as <-.
  rewrite C05_add. cbn [op_scale]. rewrite !den_scale_sum.
  assert (SX : forall l ys, osequence (map fx l) = Some ys -> scaleop (RtoC (1 / 2 * M_Addressing.p_amp p * M_Addressing.p_global_amp p)) (sum_of ys (den rho)) =
     sum_of l (fun q => scaleop (RtoC (val (M_Addressing.qubit_amp p q) / 2)) (X_ q))).
  { induction l as [|q l IH]; intros ys Q.
    - injection Q as <-. unfold sum_of. simpl. extensionality psi. extensionality x. unfold scaleop, zeroop. ring.
    - cbn [map] in Q. rewrite oseq_cons in Q. destruct (fx q) as [b|] eqn:Qb; [|discriminate]. destruct (osequence (map fx l)) as [ys'|] eqn:Qr; [|discriminate]. injection Q as <-. cbn [sum_of fold_right]. fold (sum_of ys' (den rho)). fold (sum_of l (fun q => scaleop (RtoC (val (M_Addressing.qubit_amp p q) / 2)) (X_ q))).
      rewrite scaleop_add, (IH _ eq_refl). f_equal. unfold fx in Qb. unfold M_Addressing.qubit_amp. destruct (M_Addressing.rget (M_Addressing.p_weights_amp p) q) as [w|]; [|discriminate]. cbn [obind] in Qb.
      destruct (M_Addressing.rget (M_Addressing.p_local_amp p) q) as [v|]; [|discriminate]. cbn [obind] in Qb. apply (f_equal (fun o => match o with Some b => den rho b | None => zeroop end)) in Qb. cbv beta iota in Qb. rewrite <- Qb. rewrite !C05_scale, !scaleop_scale, !ev_num. cbn [val]. unfold X_. cbn [den].
      f_equal. rewrite <- !RtoC_mult. f_equal. field. }
  assert (SZ : forall l ys, osequence (map fz l) = Some ys -> scaleop (RtoC (- M_Addressing.p_det p * M_Addressing.p_global_det p)) (sum_of ys (den rho)) =
     sum_of l (fun q => scaleop (RtoC (- val (M_Addressing.qubit_det p q))) (N_ q))).
  { induction l as [|q l IH]; intros ys Q.
    - injection Q as <-. unfold sum_of. simpl. extensionality psi. extensionality x. unfold scaleop, zeroop. ring.
    - cbn [map] in Q. rewrite oseq_cons in Q. destruct (fz q) as [b|] eqn:Qb; [|discriminate]. destruct (osequence (map fz l)) as [ys'|] eqn:Qr; [|discriminate]. injection Q as <-. cbn [sum_of fold_right]. fold (sum_of ys' (den rho)). fold (sum_of l (fun q => scaleop (RtoC (- val (M_Addressing.qubit_det p q))) (N_ q))).
      rewrite scaleop_add, (IH _ eq_refl). f_equal. unfold fz in Qb. unfold M_Addressing.qubit_det. destruct (M_Addressing.rget (M_Addressing.p_weights_det p) q) as [w|]; [|discriminate]. cbn [obind] in Qb.
      destruct (M_Addressing.rget (M_Addressing.p_local_det p) q) as [v|]; [|discriminate]. cbn [obind] in Qb. apply (f_equal (fun o => match o with Some b => den rho b | None => zeroop end)) in Qb. cbv beta iota in Qb. rewrite <- Qb. rewrite !C05_scale, C05_sub, !ev_num. cbn [val den].
      rewrite proj_N, !scaleop_scale. f_equal. rewrite <- !RtoC_mult. f_equal. ring. }
  rewrite (SX _ _ Ex), (SZ _ _ Ez), sum_of_add. reflexivity.
Qed.

(** The interaction. *)
Lemma sum_over_nth {A} rho (g : A -> expr) (f : A -> Op) (L : list A) :
  sum_over L (fun k e => scaleop (ev rho (nth k (map g L) (ECst 0))) (f e)) = sum_of L (fun e => scaleop (ev rho (g e)) (f e)).
Proof.
  unfold sum_over. assert (K : forall (L : list A) (pre : list expr), fold_right addop zeroop (map (fun kx : nat * A => scaleop (ev rho (nth (fst kx) (pre ++ map g L) (ECst 0))) (f (snd kx))) (combine (seq (length pre) (length L)) L)) =
    sum_of L (fun e => scaleop (ev rho (g e)) (f e))).
  { clear L. induction L as [|a L IH]; intros pre; [reflexivity|]. cbn [length seq combine map fold_right sum_of]. f_equal.
    - cbn [fst snd]. rewrite app_nth2, Nat.sub_diag by lia. reflexivity.
    - specialize (IH (pre ++ [g a])). rewrite app_length, Nat.add_1_r in IH. rewrite <- app_assoc in IH. exact IH. }
  exact (K L []).
Qed.
Lemma sum_of_zero {A} (l : list A) : sum_of l (fun _ => zeroop) = zeroop.
Proof. unfold sum_of. induction l as [|a l IH]; simpl; [reflexivity|]. rewrite IH. apply addop_zero_l. Qed.
Lemma sum_of_filter {A} (P : A -> bool) l f : sum_of (filter P l) f = sum_of l (fun a => if P a then f a else zeroop).
Proof.
  unfold sum_of. induction l as [|a l IH]; simpl; [reflexivity|]. destruct (P a); simpl; rewrite IH; [reflexivity|]. symmetry. apply addop_zero_l.
Qed.
Lemma sum_of_prod {A B} (l : list A) (m : list B) f : sum_of (list_prod l m) f = sum_of l (fun a => sum_of m (fun b => f (a, b))).
Proof.
  induction l as [|a l IH]; [reflexivity|]. cbn [list_prod]. rewrite sum_of_app, IH, sum_of_map. reflexivity.
Qed.
Lemma coord_in r a : NoDup (map fst r) -> In a r -> M_Register.coord r (fst a) = Some (snd a).
Proof.
  unfold M_Register.coord. induction r as [|b r IH]; intros N I; [destruct I|]. cbn [find]. cbn [map] in N. apply NoDup_cons_iff in N as [N1 N2].
  destruct I as [->|I]; [rewrite Nat.eqb_refl; reflexivity|]. destruct (Nat.eqb_spec (fst b) (fst a)) as [Q|Q]; [|apply IH; assumption].
  exfalso. apply N1. rewrite Q. apply in_map, I.
Qed.
Section TreeInd.
  Variable P : tree -> Prop.
  Hypothesis H1 : forall dur s ap, P (TInt dur s ap).
  Hypothesis H2 : forall dur om de ph s ap, P (TRot dur om de ph s ap).
  Hypothesis H3 : forall bs, Forall P bs -> P (TAChain bs).
  Hypothesis H4 : forall bs, Forall P bs -> P (TAKron bs).
  Hypothesis H5 : forall b, P (TLeaf b).
  Hypothesis H6 : forall bs, Forall P bs -> P (TChain bs).
  Hypothesis H7 : forall bs, Forall P bs -> P (TKron bs).
  Hypothesis H8 : forall bs, Forall P bs -> P (TAdd bs).
  Fixpoint tree_ind' (t : tree) : P t :=
    let go := fix go (bs : list tree) : Forall P bs := match bs with [] => Forall_nil _ | b :: bs' => Forall_cons _ (tree_ind' b) (go bs') end in
    match t with
    | TInt dur s ap => H1 dur s ap
    | TRot dur om de ph s ap => H2 dur om de ph s ap
    | TAChain bs => H3 bs (go bs)
    | TAKron bs => H4 bs (go bs)
    | TLeaf b => H5 b
    | TChain bs => H6 bs (go bs)
    | TKron bs => H7 bs (go bs)
    | TAdd bs => H8 bs (go bs)
    end.
End TreeInd.
Lemma mk_kron_val set_iter ys y : mk_kron set_iter ys = Some y -> y = BKron ys.
Proof. unfold mk_kron. destruct ys; [discriminate|]. destruct (kron_check _ _ _); [|discriminate]. intros Q. injection Q as <-. reflexivity. Qed.
Section C53.
  Variable set_iter : list nat -> list nat.
  Hypothesis Hs : set_order set_iter.
  Variable is_ham : block -> bool.
  Variable c6_dict : nat -> option R.
  Notation h_interaction := (rydberg_interaction_hamiltonian set_iter is_ham c6_dict).
  Notation add_background := (add_background_hamiltonian set_iter is_ham c6_dict).

  Theorem C53_interaction : forall d r h c, NoDup (map fst r) -> strength_of c6_dict d = Some c -> h_interaction d r = Some h ->
    forall rho, den rho h = H_int (d_coupling d) c r.
  Proof.
    intros d r h c N Ec E rho. unfold rydberg_interaction_hamiltonian in E. cbv zeta in E. unfold strength_of in Ec.
    set (g := fun e : nat * nat => match d_coupling d with NN => num (c / M_Register.pair_dist r e ^ 6) | XY => num (c / M_Register.pair_dist r e ^ 3) end).
    assert (E' : hamiltonian_factory set_iter is_ham (HReg (M_Register.support r) []) (Some (match d_coupling d with NN => INN | XY => IXY end)) None
               (SArray (map g (hpairs (HReg (M_Register.support r) [])))) SNone None true = Some h).
    { rewrite <- E. unfold g. destruct (d_coupling d).
      - rewrite Ec. cbn [obind]. unfold M_Register.distances. rewrite !map_map. reflexivity.
      - injection Ec as ->. cbn [obind]. unfold M_Register.distances. rewrite !map_map. reflexivity. }
    clear E. rewrite (C27_meaning set_iter Hs is_ham _ _ _ _ _ _ _ _ E' rho), addop_zero_l. cbn [option_map weight].
    rewrite (sum_over_nth rho g (textbook rho (match d_coupling d with NN => INN | XY => IXY end))).
    unfold hpairs. cbn [hnodes]. rewrite sum_of_filter, sum_of_prod. unfold M_Register.support. rewrite sum_of_map. unfold H_int. apply sum_of_ext. intros a Ia.
    rewrite sum_of_map. apply sum_of_ext. intros b Ib. cbn [fst snd]. destruct (Nat.ltb (fst a) (fst b)); [|reflexivity].
    unfold pair_term, g, M_Register.pair_dist. cbn [fst snd]. rewrite (coord_in r a N Ia), (coord_in r b N Ib). cbv zeta. destruct (d_coupling d); reflexivity.
  Qed.
  Theorem C53_interaction_defined : forall d r, (exists h, h_interaction d r = Some h) <-> (exists c, strength_of c6_dict d = Some c).
  Proof.
    intros d r. unfold rydberg_interaction_hamiltonian, strength_of. cbv zeta.
    assert (K : forall k g, (k = INN \/ k = IXY) -> exists h, hamiltonian_factory set_iter is_ham (HReg (M_Register.support r) []) (Some k) None
               (SArray (map g (map snd (M_Register.distances r)))) SNone None true = Some h).
    { intros k g Hk. apply (C27_defined set_iter Hs is_ham).
      - intros f Q. injection Q as Q. destruct Hk; congruence.
      - split; [left; discriminate|]. split; [intros; discriminate|]. split; [intros; discriminate|]. split.
        + intros l Q. injection Q as <-. unfold M_Register.distances. rewrite !map_length. reflexivity.
        + intros _ [i j] I. apply (proj1 (proj1 (C27_all_node_pairs _) i j)) in I. cbn [fst snd]. lia. }
    destruct (d_coupling d).
    - destruct (c6_dict (d_level d)) as [c|]; cbn [obind].
      + split; [intros _; eexists; reflexivity|intros _]. apply K. left. reflexivity.
      + split; intros [x Q]; discriminate.
    - cbn [obind]. split; [intros _; eexists; reflexivity|intros _]. apply K. right. reflexivity.
  Qed.

  (** * The whole translation *)
  Section Tree.
    Variables (d : device) (c : R) (r : M_Register.register) (h_int : block) (h_addr : option block).
    Hypothesis Hi : forall rho, den rho h_int = H_int (d_coupling d) c r.
    Hypothesis Ha : forall rho, match h_addr with Some a => den rho a | None => zeroop end =
                                match d_pattern d with Some p => H_pattern p (length r) | None => zeroop end.
    Hypothesis Hsome : h_addr = None <-> d_pattern d = None.
    Lemma background_den rho ap : den rho (background h_int h_addr ap) = H_background d c r ap.
    Proof.
      unfold background, H_background. specialize (Ha rho). destruct h_addr as [a|].
      - destruct (d_pattern d) as [p|]; [|discriminate (proj2 Hsome eq_refl)].
        destruct ap; [rewrite C05_iadd, Hi, Ha; reflexivity|]. rewrite Hi, addop_zero_r. reflexivity.
      - rewrite (proj1 Hsome eq_refl), Hi, addop_zero_r. reflexivity.
    Qed.
    Lemma rot_evolves rho dur om de ph s ap :
      drives d c r dur om de ph s ap (den rho (build_rot_ham_evo h_int h_addr ap dur (rydberg_drive_hamiltonian om de ph s r))).
    Proof.
      unfold drives, build_rot_ham_evo. pose proof (evolves_den rho (op_iadd (background h_int h_addr ap) (rydberg_drive_hamiltonian om de ph s r)) (num (dur / 1000))) as E.
      rewrite C05_iadd, background_den, C53_drive in E. exact E.
    Qed.
    Notation tr := (translate set_iter r h_int h_addr).
    Lemma translate_means : forall t b, tr t = Some b -> forall rho, means rho d c r t (den rho b).
    Proof.
      assert (Chain : forall bs, Forall (fun t => forall b, tr t = Some b -> forall rho, means rho d c r t (den rho b)) bs ->
        forall ys, osequence (map tr bs) = Some ys -> forall rho,
        (fix go bs E := match bs with [] => E = idop | b :: bs' => exists A B, means rho d c r b A /\ go bs' B /\ E = seqop A B end) bs (den rho (BChain ys))).
      { intros bs H. induction H as [|t bs Ht _ IH]; intros ys Q rho; cbn [map] in Q.
        - injection Q as <-. reflexivity.
        - rewrite oseq_cons in Q. destruct (tr t) as [y|] eqn:Ey; [|discriminate]. destruct (osequence (map tr bs)) as [ys'|]; [|discriminate]. injection Q as <-.
          exists (den rho y), (den rho (BChain ys')). split; [apply Ht; reflexivity|]. split; [apply IH; reflexivity|reflexivity]. }
      assert (Add : forall bs, Forall (fun t => forall b, tr t = Some b -> forall rho, means rho d c r t (den rho b)) bs ->
        forall ys, osequence (map tr bs) = Some ys -> forall rho,
        (fix go bs E := match bs with [] => E = zeroop | b :: bs' => exists A B, means rho d c r b A /\ go bs' B /\ E = addop A B end) bs (den rho (BAdd ys))).
      { intros bs H. induction H as [|t bs Ht _ IH]; intros ys Q rho; cbn [map] in Q.
        - injection Q as <-. reflexivity.
        - rewrite oseq_cons in Q. destruct (tr t) as [y|] eqn:Ey; [|discriminate]. destruct (osequence (map tr bs)) as [ys'|]; [|discriminate]. injection Q as <-.
          exists (den rho y), (den rho (BAdd ys')). split; [apply Ht; reflexivity|]. split; [apply IH; reflexivity|reflexivity]. }
      induction t as [dur s ap|dur om de ph s ap|bs IH|bs IH|b|bs IH|bs IH|bs IH] using tree_ind'; intros y Q rho.
      - cbn [translate] in Q. injection Q as <-. cbn [means]. pose proof (evolves_den rho (background h_int h_addr ap) (num (dur / 1000))) as E. rewrite background_den in E. exact E.
      - cbn [translate] in Q. injection Q as <-. cbn [means]. apply rot_evolves.
      - cbn [translate] in Q. destruct (osequence (map tr bs)) as [ys|] eqn:E; [|discriminate]. injection Q as <-. cbn [means]. apply Chain; assumption.
      - cbn [translate] in Q.
        assert (y = BChain (flat_map (rotation r h_int h_addr) bs)) as -> by (destruct (flat_map (rotation r h_int h_addr) bs); [discriminate|injection Q as <-; reflexivity]). clear Q IH. cbn [means].
        induction bs as [|t bs IH]; [reflexivity|]. destruct t; try exact IH.
        exists (den rho (build_rot_ham_evo h_int h_addr add_pattern dur (rydberg_drive_hamiltonian omega delta phase s r))), (den rho (BChain (flat_map (rotation r h_int h_addr) bs))).
        split; [apply rot_evolves|]. split; [exact IH|reflexivity].
      - injection Q as <-. reflexivity.
      - cbn [translate] in Q. destruct (osequence (map tr bs)) as [ys|] eqn:E; [|discriminate]. injection Q as <-. cbn [means]. apply Chain; assumption.
      - cbn [translate] in Q. destruct (osequence (map tr bs)) as [ys|] eqn:E; [|discriminate]. cbn [obind] in Q. apply mk_kron_val in Q as ->. cbn [means]. exact (Chain bs IH ys E rho).
      - cbn [translate] in Q. destruct (osequence (map tr bs)) as [ys|] eqn:E; [|discriminate]. injection Q as <-. cbn [means]. apply Add; assumption.
    Qed.
  End Tree.

  (** With a device, the operator of the block that replaces a circuit is the one the circuit stands for. *)
  Theorem C53_translation : forall d r c t b, NoDup (map fst r) -> strength_of c6_dict d = Some c ->
    add_background (Some d) r t = Some (Translated b) -> forall rho, means rho d c r t (den rho b).
  Proof.
    intros d r c t b N Ec E rho. cbn [add_background_hamiltonian] in E. destruct (h_interaction d r) as [h|] eqn:Eh; [|discriminate]. cbn [obind] in E.
    destruct (d_pattern d) as [p|] eqn:Ep.
    - destruct (rydberg_pattern_hamiltonian p r) as [a|] eqn:Ea; [|discriminate]. cbn [obind option_map] in E.
      destruct (translate set_iter r h (Some a) t) as [b'|] eqn:Et; [|discriminate]. injection E as <-. eapply (translate_means d c r h (Some a)); [| | |exact Et].
      + intros rho'. apply C53_interaction; assumption.
      + intros rho'. rewrite Ep. apply C53_pattern, Ea.
      + rewrite Ep. split; discriminate.
    - cbn [obind] in E. destruct (translate set_iter r h None t) as [b'|] eqn:Et; [|discriminate]. injection E as <-.
      eapply (translate_means d c r h None); [| | |exact Et].
      + intros rho'. apply C53_interaction; assumption.
      + intros rho'. rewrite Ep. reflexivity.
      + tauto.
  Qed.
  (** The specification determines the operator. *)
  Theorem C53_determined : forall rho d c r t E E', means rho d c r t E -> means rho d c r t E' -> E = E'.
  Proof.
    intros rho d c r.
    induction t as [dur s ap|dur om de ph s ap|bs IH|bs IH|b|bs IH|bs IH|bs IH] using tree_ind'; cbn [means]; intros E E' H H'.
    - exact (evolves_unique _ _ _ _ H H').
    - exact (evolves_unique _ _ _ _ H H').
    - revert E E' H H'. induction IH as [|t bs Ht _ IHbs]; intros E E' H H'; [congruence|].
      destruct H as (A & B & H1 & H2 & ->), H' as (A' & B' & H1' & H2' & ->). rewrite (Ht _ _ H1 H1'), (IHbs _ _ H2 H2'). reflexivity.
    - clear IH. revert E E' H H'. induction bs as [|t bs IHbs]; intros E E' H H'; [congruence|]. destruct t; try exact (IHbs _ _ H H').
      destruct H as (A & B & H1 & H2 & ->), H' as (A' & B' & H1' & H2' & ->). rewrite (evolves_unique _ _ _ _ H1 H1'), (IHbs _ _ H2 H2'). reflexivity.
    - congruence.
    - revert E E' H H'. induction IH as [|t bs Ht _ IHbs]; intros E E' H H'; [congruence|].
      destruct H as (A & B & H1 & H2 & ->), H' as (A' & B' & H1' & H2' & ->). rewrite (Ht _ _ H1 H1'), (IHbs _ _ H2 H2'). reflexivity.
    - revert E E' H H'. induction IH as [|t bs Ht _ IHbs]; intros E E' H H'; [congruence|].
      destruct H as (A & B & H1 & H2 & ->), H' as (A' & B' & H1' & H2' & ->). rewrite (Ht _ _ H1 H1'), (IHbs _ _ H2 H2'). reflexivity.
    - revert E E' H H'. induction IH as [|t bs Ht _ IHbs]; intros E E' H H'; [congruence|].
      destruct H as (A & B & H1 & H2 & ->), H' as (A' & B' & H1' & H2' & ->). rewrite (Ht _ _ H1 H1'), (IHbs _ _ H2 H2'). reflexivity.
  Qed.
  (** Without a device nothing changes. *)
  Theorem C53_no_device : forall r t, add_background None r t = Some (Unchanged t).
  Proof. reflexivity. Qed.

  (** AnalogRot is refused exactly when it drives nothing, and otherwise evolves under its own drive for its own duration. *)
  Theorem C53_analog_rot : forall dur omega delta phase s ap,
    (AnalogRot dur omega delta phase s ap = None <-> omega = 0%R /\ delta = 0%R) /\
    forall t d r c b rho, AnalogRot dur omega delta phase s ap = Some t -> NoDup (map fst r) -> strength_of c6_dict d = Some c ->
      add_background (Some d) r t = Some (Translated b) ->
      evolves (addop (H_background d c r ap) (H_drive omega delta phase (driven r s))) (dur / 1000) (den rho b).
  Proof.
    intros dur omega delta phase s ap. unfold AnalogRot. destruct (Req_EM_T omega 0) as [Z|Z]; [destruct (Req_EM_T delta 0) as [Y|Y]|].
    1: split; [tauto|discriminate].
    all: split; [split; [discriminate|intros []; contradiction]|]; intros t d r c b rho Et N Ec E; injection Et as <-; exact (C53_translation d r c _ b N Ec E rho).
  Qed.

  (** * When the translation is defined *)
  (** A circuit without digital kron is translated exactly when the device's level has a coefficient, the pattern covers the register,
      and every AnalogKron has a rotation among its parts. *)
  Fixpoint has_drives (t : tree) : Prop :=
    match t with
    | TInt _ _ _ | TRot _ _ _ _ _ _ | TLeaf _ => True
    | TAChain bs | TChain bs | TAdd bs => fold_right (fun b k => has_drives b /\ k) True bs
    | TAKron bs => exists dur om de ph s ap, In (TRot dur om de ph s ap) bs
    | TKron _ => False
    end.
  Fixpoint kron_free (t : tree) : Prop :=
    match t with
    | TInt _ _ _ | TRot _ _ _ _ _ _ | TLeaf _ | TAKron _ => True
    | TAChain bs | TChain bs | TAdd bs => fold_right (fun b k => kron_free b /\ k) True bs
    | TKron _ => False
    end.
  Lemma oseq_all {A B} (f : A -> option B) l : (exists ys, osequence (map f l) = Some ys) <-> (forall a, In a l -> exists y, f a = Some y).
  Proof.
    induction l as [|a l IH]; [split; [intros _ b []|intros _; exists []; reflexivity]|]. cbn [map]. rewrite oseq_cons. split.
    - intros [ys Q] b [<-|I]; destruct (f a) as [y|] eqn:E; try discriminate; [exists y; reflexivity|]. destruct (osequence (map f l)) as [ys'|]; [|discriminate]. apply (proj1 IH); [eexists; reflexivity|exact I].
    - intros H. destruct (H a (or_introl eq_refl)) as [y ->]. destruct (proj2 IH (fun b I => H b (or_intror I))) as [ys ->]. eexists; reflexivity.
  Qed.
  Lemma fold_and {A} (P : A -> Prop) l : fold_right (fun b k => P b /\ k) True l <-> forall a, In a l -> P a.
  Proof. induction l as [|a l IH]; simpl; [split; [intros _ b []|trivial]|]. rewrite IH. split; [intros [H1 H2] b [<-|I]; auto|intros H; split; auto]. Qed.
  Lemma translate_defined r h a t : kron_free t -> ((exists b, translate set_iter r h a t = Some b) <-> has_drives t).
  Proof.
    assert (L : forall bs, Forall (fun t => kron_free t -> ((exists b, translate set_iter r h a t = Some b) <-> has_drives t)) bs -> fold_right (fun b k => kron_free b /\ k) True bs ->
       ((exists ys, osequence (map (translate set_iter r h a) bs) = Some ys) <-> fold_right (fun b k => has_drives b /\ k) True bs)).
    { intros bs F K. rewrite oseq_all, fold_and. rewrite fold_and in K. rewrite Forall_forall in F. split; intros H b I; apply (F b I (K b I)), H, I. }
    assert (M : forall (g : list block -> block) bs, (exists b, option_map g (osequence (map (translate set_iter r h a) bs)) = Some b) <-> (exists ys, osequence (map (translate set_iter r h a) bs) = Some ys)).
    { intros g bs. destruct (osequence _) as [ys|]; split; intros [y Q]; try discriminate; eexists; reflexivity. }
    induction t as [dur s ap|dur om de ph s ap|bs IH|bs IH|b|bs IH|bs IH|bs IH] using tree_ind'; cbn [kron_free has_drives]; intros K;
      try (split; [trivial|intros _; eexists; reflexivity]); try contradiction; cbn [translate]; try (rewrite M; apply L; assumption).
    clear IH K. split.
    - intros [y Q]. induction bs as [|t bs IH]; [discriminate|]. destruct t; try (destruct (IH Q) as (u1 & u2 & u3 & u4 & u5 & u6 & I); repeat eexists; right; exact I).
      repeat eexists. left. reflexivity.
    - intros (u1 & u2 & u3 & u4 & u5 & u6 & I). destruct (flat_map (rotation r h a) bs) as [|y ys] eqn:E; [|eexists; reflexivity].
      assert (J : In (build_rot_ham_evo h a u6 u1 (rydberg_drive_hamiltonian u2 u3 u4 u5 r)) (flat_map (rotation r h a) bs)) by (apply in_flat_map; eexists; split; [exact I|left; reflexivity]).
      rewrite E in J. destruct J.
  Qed.
  Lemma pattern_defined p r : (exists h, rydberg_pattern_hamiltonian p r = Some h) <->
    (forall q, (q < length r)%nat -> M_Addressing.qubit_amp p q <> None /\ M_Addressing.qubit_det p q <> None).
  Proof.
    unfold rydberg_pattern_hamiltonian. cbv zeta. 
    match goal with |- (exists h, obind (osequence (map ?f ?l)) ?k = Some h) <-> _ => pose proof (oseq_all f l) as Ox; destruct (osequence (map f l)) as [xs|] end; cbn [obind].
    2:{ split; [intros [h Q]; discriminate|]. intros H. exfalso. assert (X : exists ys : list block, None = Some ys); [|destruct X; discriminate]. apply Ox. intros q I. apply in_seq in I.
        destruct (H q) as [H1 _]; [lia|]. unfold M_Addressing.qubit_amp in H1. destruct (M_Addressing.rget (M_Addressing.p_weights_amp p) q); [|congruence]. destruct (M_Addressing.rget (M_Addressing.p_local_amp p) q); [|congruence]. eexists; reflexivity. }
    match goal with |- (exists h, obind (osequence (map ?f ?l)) ?k = Some h) <-> _ => pose proof (oseq_all f l) as Oz; destruct (osequence (map f l)) as [zs|] end; cbn [obind].
    2:{ split; [intros [h Q]; discriminate|]. intros H. exfalso. assert (X : exists ys : list block, None = Some ys); [|destruct X; discriminate]. apply Oz. intros q I. apply in_seq in I.
        destruct (H q) as [_ H1]; [lia|]. unfold M_Addressing.qubit_det in H1. destruct (M_Addressing.rget (M_Addressing.p_weights_det p) q); [|congruence]. destruct (M_Addressing.rget (M_Addressing.p_local_det p) q); [|congruence]. eexists; reflexivity. }
    split; [|intros _; eexists; reflexivity]. intros _ q Hq. assert (I : In q (seq 0 (length r))) by (apply in_seq; lia).
    destruct (proj1 Ox (ex_intro _ xs eq_refl) q I) as [y Ey]. destruct (proj1 Oz (ex_intro _ zs eq_refl) q I) as [z Ez]. unfold M_Addressing.qubit_amp, M_Addressing.qubit_det. split.
    - destruct (M_Addressing.rget (M_Addressing.p_weights_amp p) q); [|discriminate]. cbn [obind] in Ey. destruct (M_Addressing.rget (M_Addressing.p_local_amp p) q); [discriminate|discriminate].
    - destruct (M_Addressing.rget (M_Addressing.p_weights_det p) q); [|discriminate]. cbn [obind] in Ez. destruct (M_Addressing.rget (M_Addressing.p_local_det p) q); [discriminate|discriminate].
  Qed.
  Theorem C53_defined : forall d r t, kron_free t ->
    ((exists b, add_background (Some d) r t = Some (Translated b)) <->
     (exists c, strength_of c6_dict d = Some c) /\
     (forall p, d_pattern d = Some p -> forall q, (q < length r)%nat -> M_Addressing.qubit_amp p q <> None /\ M_Addressing.qubit_det p q <> None) /\
     has_drives t).
  Proof.
    intros d r t K. rewrite <- C53_interaction_defined with (r := r). cbn [add_background_hamiltonian].
    destruct (h_interaction d r) as [h|]; cbn [obind]; [|split; [intros [b Q]; discriminate|intros [[c Q] _]; discriminate]].
    destruct (d_pattern d) as [p|].
    - pose proof (pattern_defined p r) as PD. destruct (rydberg_pattern_hamiltonian p r) as [a|]; cbn [obind option_map].
      + pose proof (translate_defined r h (Some a) t K) as TD. split.
        * intros [b Q]. split; [eexists; reflexivity|]. split; [intros p' Q'; injection Q' as <-; apply PD; eexists; reflexivity|]. apply TD. destruct (translate _ _ _ _ t); [eexists; reflexivity|discriminate].
        * intros (_ & _ & H). apply TD in H as [b ->]. eexists; reflexivity.
      + split; [intros [b Q]; discriminate|]. intros (_ & H & _). destruct (proj2 PD (H p eq_refl)) as [x Q]. discriminate.
    - cbn [obind option_map]. pose proof (translate_defined r h None t K) as TD. split.
      + intros [b Q]. split; [eexists; reflexivity|]. split; [intros; discriminate|]. apply TD. destruct (translate _ _ _ _ t); [eexists; reflexivity|discriminate].
      + intros (_ & _ & H). apply TD in H as [b ->]. eexists; reflexivity.
  Qed.

  (** * Digital circuits *)
  Fixpoint embed (b : block) : tree :=
    match b with
    | BChain bs => TChain (map embed bs) | BKron bs => TKron (map embed bs) | BAdd bs => TAdd (map embed bs)
    | _ => TLeaf b
    end.
  (** A digital circuit is not changed. *)
  Theorem C53_digital : forall d r b o, krons_ok b -> add_background (Some d) r (embed b) = Some o -> o = Translated b.
  Proof.
    intros d r b o K E. cbn [add_background_hamiltonian] in E. destruct (h_interaction d r) as [h|]; [|discriminate]. cbn [obind] in E.
    assert (T : forall a, translate set_iter r h a (embed b) = Some b).
    { intros a. clear E. revert K. assert (L : forall bs, Forall (fun b => krons_ok b -> translate set_iter r h a (embed b) = Some b) bs -> (forall b, In b bs -> krons_ok b) ->
        osequence (map (translate set_iter r h a) (map embed bs)) = Some bs).
      { intros bs F. induction F as [|x bs Hx F IH]; intros H; [reflexivity|]. cbn [map]. rewrite oseq_cons, (Hx (H x (or_introl eq_refl))), IH; [reflexivity|]. intros y I. apply H. right. exact I. }
      induction b as [p q|k br qs|rr q e|q x y z|x y|x y z|cs b IH|cs b IH|b e IH|bs IH|bs IH|bs IH|m qs|g tt IH] using block_ind'; intros K; try reflexivity; cbn [krons_ok] in K; cbn [embed translate].
      - rewrite L; [reflexivity|exact IH|]. apply fold_and, K.
      - destruct K as (K1 & K2 & K3). rewrite L; [|exact IH|apply fold_and, K3]. cbn [obind]. apply (proj1 (mk_kron_spec set_iter Hs bs)). split; [exact K1|exact K2].
      - rewrite L; [reflexivity|exact IH|]. apply fold_and, K. }
    destruct (d_pattern d) as [p|]; [destruct (rydberg_pattern_hamiltonian p r) as [a|]; [|discriminate]|]; cbn [obind option_map] in E; rewrite T in E; injection E as <-; reflexivity.
  Qed.

  (** * Durations *)
  (** Two pulses with the same parameters one after the other are one pulse of the total duration; so are two waits. *)
  Lemma evolves_add H t1 t2 E1 E2 fs : NoDup fs -> loc (inl fs) H -> evolves H t1 E1 -> evolves H t2 E2 -> evolves H (t1 + t2) (seqop E1 E2).
  Proof.
    intros N L H1 H2. rewrite (evolves_unique _ _ _ _ H1 (evolves_eop fs H t1 N L)), (evolves_unique _ _ _ _ H2 (evolves_eop fs H t2 N L)).
    rewrite eop_add; [|exact N|apply loc_scale, L|apply loc_scale, L|].
    - replace (addop (scaleop (- Ci * RtoC t1) H) (scaleop (- Ci * RtoC t2) H)) with (scaleop (- Ci * RtoC (t1 + t2)) H); [apply evolves_eop; assumption|].
      extensionality psi. extensionality x. unfold addop, scaleop. rewrite RtoC_plus. ring.
    - rewrite !seqop_scale_r, !seqop_scale_l by (apply (loc_linear (inl fs)), L). rewrite !scaleop_scale. f_equal. ring.
  Qed.
  Definition H_leaf (d : device) (c : R) (r : M_Register.register) (t : tree) : option (R * Op) :=
    match t with
    | TInt dur _ ap => Some (dur, H_background d c r ap)
    | TRot dur om de ph s ap => Some (dur, addop (H_background d c r ap) (H_drive om de ph (driven r s)))
    | _ => None
    end.
  Lemma loc_sum {A} T (l : list A) f : (forall a, In a l -> loc T (f a)) -> loc T (sum_of l f).
  Proof. intros H. unfold sum_of. induction l as [|a l IH]; simpl; [constructor|]. apply loc_add; [apply H; left; reflexivity|apply IH; intros b I; apply H; right; exact I]. Qed.
  Lemma loc_1 fs q m : In q fs -> loc (inl fs) (gate1 q m).
  Proof. intros I. eapply loc_mono; [|apply loc_gate1]. intros p <-. exact I. Qed.
  Lemma loc_background d c r ap fs : (forall q, In q (map fst r) -> In q fs) -> (forall q, (q < length r)%nat -> In q fs) -> loc (inl fs) (H_background d c r ap).
  Proof.
    intros H1 H2. unfold H_background. apply loc_add.
    - unfold H_int. apply loc_sum. intros a Ia. apply loc_sum. intros b Ib. destruct (Nat.ltb (fst a) (fst b)); [|constructor].
      apply (in_map fst) in Ia, Ib. unfold pair_term. cbv zeta. destruct (d_coupling d); apply loc_scale; [|apply loc_add]; apply loc_seq; apply loc_1, H1; assumption.
    - destruct (d_pattern d); [|constructor]. destruct ap; [|constructor]. apply loc_sum. intros q Iq. apply in_seq in Iq. apply loc_add; apply loc_scale, loc_1, H2; lia.
  Qed.
  Lemma loc_drive om de ph qs fs : (forall q, In q qs -> In q fs) -> loc (inl fs) (H_drive om de ph qs).
  Proof. intros H. apply loc_sum. intros q Iq. apply loc_add; [|apply loc_add]; apply loc_scale, loc_1, H, Iq. Qed.
  Lemma loc_leaf d c r t dur H : H_leaf d c r t = Some (dur, H) -> exists fs, NoDup fs /\ loc (inl fs) H.
  Proof.
    intros Q. exists (nodup Nat.eq_dec (map fst r ++ seq 0 (length r) ++ match t with TRot _ _ _ _ s _ => driven r s | _ => [] end)). split; [apply NoDup_nodup|].
    assert (B : forall ap, loc (inl (nodup Nat.eq_dec (map fst r ++ seq 0 (length r) ++ match t with TRot _ _ _ _ s _ => driven r s | _ => [] end))) (H_background d c r ap)).
    { intros ap. apply loc_background; intros q I; apply nodup_In, in_app_iff; [left; exact I|right; apply in_app_iff; left; apply in_seq; lia]. }
    destruct t; try discriminate; injection Q as <- <-; [apply B|]. apply loc_add; [apply B|]. apply loc_drive. intros q I. apply nodup_In, in_app_iff. right. apply in_app_iff. right. exact I.
  Qed.
  Theorem C53_durations_add : forall d r c t1 t2 t3 b b', NoDup (map fst r) -> strength_of c6_dict d = Some c ->
    (forall s1 s2 s3 ap d1 d2, t1 = TInt d1 s1 ap -> t2 = TInt d2 s2 ap -> t3 = TInt (d1 + d2) s3 ap ->
      add_background (Some d) r (TAChain [t1; t2]) = Some (Translated b) -> add_background (Some d) r t3 = Some (Translated b') -> forall rho, den rho b = den rho b') /\
    (forall om de ph s ap d1 d2, t1 = TRot d1 om de ph s ap -> t2 = TRot d2 om de ph s ap -> t3 = TRot (d1 + d2) om de ph s ap ->
      add_background (Some d) r (TAChain [t1; t2]) = Some (Translated b) -> add_background (Some d) r t3 = Some (Translated b') -> forall rho, den rho b = den rho b').
  Proof.
    intros d r c t1 t2 t3 b b' N Ec.
    assert (K : forall d1 d2 H E E1 E2, (exists fs, NoDup fs /\ loc (inl fs) H) -> evolves H (d1 / 1000) E1 -> evolves H (d2 / 1000) E2 -> evolves H ((d1 + d2) / 1000) E -> seqop E1 E2 = E).
    { intros d1 d2 H E E1 E2 (fs & Nf & L) V1 V2 V. eapply evolves_unique; [eapply evolves_add; eassumption|]. replace (d1 / 1000 + d2 / 1000)%R with ((d1 + d2) / 1000)%R by field. exact V. }
    split.
    - intros s1 s2 s3 ap d1 d2 -> -> -> E E' rho. pose proof (C53_translation _ _ _ _ _ N Ec E rho) as M. pose proof (C53_translation _ _ _ _ _ N Ec E' rho) as M'. cbn [means] in M, M'.
      destruct M as (A & B & MA & (A2 & B2 & MB & -> & ->) & ->). rewrite seqop_id_r. eapply K; [exact (loc_leaf d c r (TInt d1 s1 ap) _ _ eq_refl)|exact MA|exact MB|exact M'].
    - intros om de ph s ap d1 d2 -> -> -> E E' rho. pose proof (C53_translation _ _ _ _ _ N Ec E rho) as M. pose proof (C53_translation _ _ _ _ _ N Ec E' rho) as M'. cbn [means] in M, M'.
      destruct M as (A & B & MA & (A2 & B2 & MB & -> & ->) & ->). rewrite seqop_id_r. eapply K; [exact (loc_leaf d c r (TRot d1 om de ph s ap) _ _ eq_refl)|exact MA|exact MB|exact M'].
  Qed.

  (** * Rotations without interaction *)
  Lemma eop_sum_of fs (M U : nat -> Op) t : NoDup fs -> forall qs, NoDup qs -> (forall q, In q qs -> In q fs) -> (forall q, loc (eq q) (M q)) ->
    (forall q, eop [q] (scaleop (- Ci * RtoC t) (M q)) = U q) -> eop fs (scaleop (- Ci * RtoC t) (sum_of qs M)) = seqs (map U qs).
  Proof.
    intros N. induction qs as [|q qs IH]; intros Nq Hq L HU.
    - unfold sum_of. simpl. replace (scaleop (- Ci * RtoC t) zeroop) with zeroop by (extensionality psi; extensionality x; unfold scaleop, zeroop; ring). apply eop_zero, N.
    - apply NoDup_cons_iff in Nq as [Nq1 Nq2]. cbn [map]. change (sum_of (q :: qs) M) with (addop (M q) (sum_of qs M)). rewrite scaleop_add.
      assert (Lq : forall p, In p (q :: qs) -> loc (inl fs) (M p)) by (intros p I; eapply loc_mono; [|apply L]; intros p' <-; apply Hq, I).
      rewrite <- eop_add; [|exact N|apply loc_scale, Lq; left; reflexivity|apply loc_scale, loc_sum; intros p I; apply Lq; right; exact I|].
      + cbn [seqs]. rewrite <- (IH Nq2); [|intros p I; apply Hq; right; exact I|exact L|exact HU]. f_equal. rewrite <- (HU q).
        apply eop_indep; [exact N|repeat constructor; intros []|apply loc_scale, Lq; left; reflexivity|]. apply loc_scale. eapply loc_mono; [|apply L]. intros p <-. left. reflexivity.
      + apply (loc_comm (eq q) (fun p => In p qs)); [apply loc_scale, L|apply loc_scale, loc_sum; intros p I; eapply loc_mono; [|apply L]; intros p' <-; exact I|]. intros p <- I. exact (Nq1 I).
  Qed.
  Lemma rot_exp q : (forall th, eop [q] (scaleop (- Ci * RtoC (th / PI)) (scaleop (RtoC (PI / 2)) (X_ q))) = gate1 q (rot_mat RX_ th)) /\
    (forall th, eop [q] (scaleop (- Ci * RtoC (th / PI)) (scaleop (RtoC (PI / 2)) (Y_ q))) = gate1 q (rot_mat RY_ th)) /\
    (forall th, eop [q] (scaleop (- Ci * RtoC (th / PI)) (scaleop (RtoC (- PI)) (N_ q))) = gate1 q (rot_mat RPhase th)).
  Proof.
    assert (Nd : NoDup [q]) by (repeat constructor; intros []). assert (P := PI_neq0).
    assert (S : forall th (Q : Op), scaleop (- Ci * RtoC (th / PI)) (scaleop (RtoC (PI / 2)) Q) = scaleop (- Ci * RtoC (th / 2)) Q).
    { intros th Q. rewrite scaleop_scale. f_equal. rewrite <- Cmult_assoc, <- RtoC_mult. f_equal. f_equal. field. exact P. }
    assert (Px : forall (psi : St) x q, psi x = psi (upd x q (x q))) by (intros; rewrite upd_id; reflexivity).
    split; [|split]; intros th.
    - rewrite S, eop_invol; [|exact Nd|apply loc_1; left; reflexivity|apply prim_invol; unfold involutive; tauto].
      extensionality psi. extensionality x. unfold rotop, addop, scaleop, idop, X_. rewrite !gate1_eq. destruct (x q) eqn:Ex; simpl; rewrite (Px psi x q), Ex; ring.
    - rewrite S, eop_invol; [|exact Nd|apply loc_1; left; reflexivity|apply prim_invol; unfold involutive; tauto].
      extensionality psi. extensionality x. unfold rotop, addop, scaleop, idop, Y_. rewrite !gate1_eq. destruct (x q) eqn:Ex; simpl; rewrite (Px psi x q), Ex;
        generalize (psi (upd x q true)) (psi (upd x q false)); intros [a1 a2] [b1 b2]; apply Ceq; simpl; ring.
    - unfold N_. rewrite n_rdiag, rdiag_scale, eop_rdiag; [|exact Nd|].
      + extensionality psi. extensionality x. rewrite gate1_diag by reflexivity. unfold diag, b2r. destruct (x q); cbn [rot_mat mat2]; f_equal.
        * f_equal. field. exact P.
        * rewrite Rmult_0_r, Rmult_0_r, Ropp_0. unfold cis. rewrite cos_0, sin_0. reflexivity.
      + rewrite <- rdiag_scale, <- n_rdiag. apply loc_scale, loc_1. left. reflexivity.
  Qed.
  (** Without interaction and pattern, AnalogRX, AnalogRY and AnalogRZ turn each driven qubit by RX, RY and PHASE of the angle. *)
  Theorem C53_rotations : forall d r c s ap th b, NoDup (map fst r) -> strength_of c6_dict d = Some c ->
    (length r = 1%nat \/ c = 0%R) -> (d_pattern d = None \/ ap = false) -> NoDup (driven r s) ->
    (add_background (Some d) r (AnalogRX th s ap) = Some (Translated b) -> forall rho, den rho b = seqs (map (fun q => gate1 q (rot_mat RX_ th)) (driven r s))) /\
    (add_background (Some d) r (AnalogRY th s ap) = Some (Translated b) -> forall rho, den rho b = seqs (map (fun q => gate1 q (rot_mat RY_ th)) (driven r s))) /\
    (add_background (Some d) r (AnalogRZ th s ap) = Some (Translated b) -> forall rho, den rho b = seqs (map (fun q => gate1 q (rot_mat RPhase th)) (driven r s))).
  Proof.
    intros d r c s ap th b N Ec Hc Hp Nd.
    assert (B : H_background d c r ap = zeroop).
    { unfold H_background. replace (H_int (d_coupling d) c r) with zeroop.
      - rewrite addop_zero_l. destruct Hp as [-> | ->]; [reflexivity|]. destruct (d_pattern d); reflexivity.
      - symmetry. unfold H_int. destruct Hc as [Hc| ->].
        + destruct r as [|a [|? ?]]; try discriminate. unfold sum_of. simpl. rewrite Nat.ltb_irrefl. rewrite !addop_zero_l. reflexivity.
        + transitivity (sum_of r (fun _ => zeroop)); [|apply sum_of_zero]. apply sum_of_ext. intros a _. transitivity (sum_of r (fun _ => zeroop)); [|apply sum_of_zero].
          apply sum_of_ext. intros a' _. destruct (Nat.ltb (fst a) (fst a')); [|reflexivity].
          unfold pair_term. cbv zeta. destruct (d_coupling d); unfold Rdiv; rewrite Rmult_0_l; extensionality psi; extensionality x; unfold scaleop, zeroop; ring. }
    assert (K : forall dur om de ph (M U : nat -> Op), add_background (Some d) r (TRot dur om de ph s ap) = Some (Translated b) ->
      (forall q, addop (scaleop (RtoC (om / 2 * cos ph)) (X_ q)) (addop (scaleop (RtoC (- (om / 2 * sin ph))) (Y_ q)) (scaleop (RtoC (- de)) (N_ q))) = M q) ->
      (forall q, loc (eq q) (M q)) -> (forall q, eop [q] (scaleop (- Ci * RtoC (dur / 1000)) (M q)) = U q) -> forall rho, den rho b = seqs (map U (driven r s))).
    { intros dur om de ph M U E HM L HU rho. pose proof (C53_translation _ _ _ _ _ N Ec E rho) as V. cbn [means] in V. unfold drives in V. rewrite B, addop_zero_l in V.
      assert (D : H_drive om de ph (driven r s) = sum_of (driven r s) M) by (apply sum_of_ext; intros q _; apply HM). rewrite D in V.
      rewrite <- (eop_sum_of (driven r s) M U (dur / 1000) Nd (driven r s) Nd (fun q I => I) L HU). apply (evolves_unique _ _ _ _ V). apply evolves_eop; [exact Nd|].
      apply loc_sum. intros q I. eapply loc_mono; [|apply L]. intros p <-. exact I. }
    split; [|split]; intros E.
    - apply (K _ _ _ _ (fun q => scaleop (RtoC (PI / 2)) (X_ q)) _ E).
      + intros q. rewrite cos_0, sin_0. extensionality psi. extensionality x. unfold addop, scaleop. rewrite !RtoC_opp, !RtoC_mult. ring.
      + intros q. apply loc_scale, loc_gate1.
      + intros q. specialize (rot_exp q) as (H & _). replace (th / PI * 1000 / 1000)%R with (th / PI)%R by (field; apply PI_neq0). apply H.
    - apply (K _ _ _ _ (fun q => scaleop (RtoC (PI / 2)) (Y_ q)) _ E).
      + intros q. replace (- PI / 2)%R with (- (PI / 2))%R by field. rewrite cos_neg, sin_neg, cos_PI2, sin_PI2. extensionality psi. extensionality x. unfold addop, scaleop. rewrite !RtoC_opp, !RtoC_mult, RtoC_opp. ring.
      + intros q. apply loc_scale, loc_gate1.
      + intros q. specialize (rot_exp q) as (_ & H & _). replace (th / PI * 1000 / 1000)%R with (th / PI)%R by (field; apply PI_neq0). apply H.
    - apply (K _ _ _ _ (fun q => scaleop (RtoC (- PI)) (N_ q)) _ E).
      + intros q. extensionality psi. extensionality x. unfold addop, scaleop. replace (0 / 2)%R with 0%R by field. rewrite !RtoC_opp, !RtoC_mult. ring.
      + intros q. apply loc_scale, loc_gate1.
      + intros q. specialize (rot_exp q) as (_ & _ & H). replace (th / PI * 1000 / 1000)%R with (th / PI)%R by (field; apply PI_neq0). apply H.
  Qed.

  (** * Norms *)
  Lemma herm_iadd rho a b : herm_block rho a -> herm_block rho b -> herm_block rho (op_iadd a b).
  Proof.
    intros Ha Hb. unfold op_iadd. destruct (is_zero a); [exact Hb|]. cbn [herm_block]. apply fold_and. intros y I.
    assert (U : forall z, herm_block rho z -> forall y, In y (unroll_add z) -> herm_block rho y).
    { intros z Hz y' Iy. destruct z; cbn [unroll_add] in Iy; try (destruct Iy as [<-|[]]; exact Hz). cbn [herm_block] in Hz. exact (proj1 (fold_and _ _) Hz y' Iy). }
    apply in_app_iff in I as [I|I]; [exact (U a Ha y I)|exact (U b Hb y I)].
  Qed.
  Lemma herm_scale rho a e : snd (ev rho e) = 0%R -> herm_block rho a -> herm_block rho (op_scale a e).
  Proof.
    intros He Ha. assert (D : herm_block rho (BScale a e)) by (split; assumption). destruct a; try exact D; [destruct p; exact D || exact I|].
    cbn [op_scale herm_block] in *. destruct Ha as [H1 H2]. split; [|exact H2]. cbn [ev]. unfold Cmult. cbn [fst snd]. rewrite H1, He. ring.
  Qed.
  Lemma herm_sub rho a b : is_zero a = false -> herm_block rho a -> herm_block rho b -> herm_block rho (op_sub a b).
  Proof.
    intros Hz Ha Hb. unfold op_sub. rewrite Hz.
    assert (D : herm_block rho (BAdd [a; BScale b (ECst (- (1)))])) by (cbn [herm_block fold_right]; repeat split; try assumption; cbn; ring).
    destruct b; try exact D. cbn [herm_block] in Hb. destruct Hb as [H1 H2]. cbn [herm_block fold_right]. repeat split; try assumption. cbn [ev]. unfold Copp. cbn [snd]. rewrite H1. ring.
  Qed.
  Lemma herm_sum rho bs : (forall b, In b bs -> herm_block rho b) -> herm_block rho (BAdd bs).
  Proof. intros H. cbn [herm_block]. apply fold_and, H. Qed.
  Lemma herm_drive rho om de ph s r : herm_block rho (rydberg_drive_hamiltonian om de ph s r).
  Proof.
    unfold rydberg_drive_hamiltonian. cbv zeta. generalize (match s with SLocal l => l | SGlobal => M_Register.support r end). intros qs.
    apply herm_sub; [reflexivity|apply herm_sub; [reflexivity| |]|]; (apply herm_scale; [reflexivity|]; apply herm_sum; intros b I; apply in_map_iff in I as (q & <- & _)); try (apply herm_scale; [reflexivity|exact Logic.I]); exact Logic.I.
  Qed.
  Lemma herm_int rho d r h : h_interaction d r = Some h -> herm_block rho h.
  Proof.
    intros E. unfold rydberg_interaction_hamiltonian in E. cbv zeta in E.
    match type of E with obind ?o _ = _ => assert (W : forall ws, o = Some ws -> forall w, In w ws -> exists x, w = num x); [|destruct o as [ws|]; [|discriminate]] end.
    { intros ws Q w I. destruct (d_coupling d).
      - destruct (c6_dict (d_level d)); [|discriminate]. injection Q as <-. apply in_map_iff in I as (y & <- & _). eexists; reflexivity.
      - injection Q as <-. apply in_map_iff in I as (y & <- & _). eexists; reflexivity. }
    specialize (W ws eq_refl). cbn [obind] in E. unfold hamiltonian_factory in E.
    match type of E with obind ?o _ = _ => destruct o as [fn|] eqn:Ef; [|discriminate] end. cbn [obind preprocess_strengths option_map] in E.
    match type of E with obind ?o _ = _ => destruct o as [ws'|] eqn:Ew; [|discriminate] end. cbn [obind] in E.
    assert (ws' = ws) as -> by (destruct (Nat.eqb _ _); [injection Ew as <-; reflexivity|discriminate]).
    match type of E with obind ?o _ = _ => destruct o as [ps|] eqn:Ep; [|discriminate] end. cbn [obind] in E. injection E as <-. apply herm_sum. intros b I.
    destruct fn as [f|]; [|injection Ep as <-; destruct I].
    assert (Hf : forall i j b, f i j = Some b -> herm_block rho b).
    { clear - Ef Hs. intros i j b Q.
      assert (T : forall p y, two set_iter p i j = Some y -> match p with PX | PY | PN _ => True | _ => False end -> herm_block rho y).
      { intros p y Qy Hp. rewrite (two_some set_iter Hs) in Qy. destruct (Nat.eqb_spec i j) as [|Ne]; [discriminate|]. injection Qy as <-. cbn [herm_block fold_right]. split.
        - repeat constructor. intros q [<-|[]] [H|[]]. congruence.
        - destruct p; try contradiction; tauto. }
      destruct (d_coupling d); cbn [int_fn option_map] in Ef; injection Ef as <-.
      - apply (T _ _ Q). exact I.
      - unfold interaction_xy in Q. destruct (two set_iter PX i j) as [x|] eqn:Ex; [|discriminate]. cbn [obind] in Q. destruct (two set_iter PY i j) as [y|] eqn:Ey; [|discriminate]. cbn [obind] in Q. injection Q as <-.
        pose proof (T _ _ Ex I) as Tx. pose proof (T _ _ Ey I) as Ty. unfold op_add. destruct (is_zero x); [exact Ty|]. apply herm_sum. intros z [<-|[<-|[]]]; assumption. }
    clear Ef. revert ps Ep I. set (L := combine ws _). assert (WL : forall we, In we L -> exists x, fst we = num x) by (intros [w e] I'; apply in_combine_l in I'; apply W, I'). clearbody L.
    induction L as [|we L IH]; intros ps Ep I; [injection Ep as <-; destruct I|]. cbn [map] in Ep. rewrite oseq_cons in Ep.
    destruct (f (fst (snd we)) (snd (snd we))) as [y|] eqn:Ey; [|discriminate]. cbn [option_map] in Ep. destruct (osequence _) as [ps'|] eqn:Er; [|discriminate]. injection Ep as <-.
    destruct I as [<-|I]; [|apply (IH (fun we H => WL we (or_intror H)) ps' eq_refl I)]. destruct (WL we (or_introl eq_refl)) as [x ->]. apply herm_scale; [reflexivity|]. exact (Hf _ _ _ Ey).
  Qed.
  Lemma herm_pattern rho p r h : rydberg_pattern_hamiltonian p r = Some h -> herm_block rho h.
  Proof.
    intros E. unfold rydberg_pattern_hamiltonian in E. cbv zeta in E.
    assert (K : forall (f : nat -> option block), (forall q b, f q = Some b -> herm_block rho b) -> forall l ys, osequence (map f l) = Some ys -> herm_block rho (BAdd ys)).
    { intros f Hf. induction l as [|q l IH]; intros ys Q; [injection Q as <-; exact I|]. cbn [map] in Q. rewrite oseq_cons in Q. destruct (f q) as [y|] eqn:Ey; [|discriminate].
      destruct (osequence (map f l)) as [ys'|]; [|discriminate]. injection Q as <-. split; [exact (Hf _ _ Ey)|exact (IH _ eq_refl)]. }
    match type of E with obind ?o _ = _ => destruct o as [xs|] eqn:Ex; [|discriminate] end. cbn [obind] in E.
    match type of E with obind ?o _ = _ => destruct o as [zs|] eqn:Ez; [|discriminate] end. cbn [obind] in E. injection E as <-.
    apply (herm_sum rho [BScale (BAdd xs) _; BScale (BAdd zs) _]). intros b [<-|[<-|[]]]; (split; [reflexivity|]); [refine (K _ _ _ _ Ex)|refine (K _ _ _ _ Ez)]; intros q b Q; cbv beta in Q.
    - destruct (M_Addressing.rget (M_Addressing.p_weights_amp p) q); [|discriminate]. cbn [obind] in Q. destruct (M_Addressing.rget (M_Addressing.p_local_amp p) q); [|discriminate]. cbn [obind] in Q.
      assert (Q' : forall z, Some z = Some b -> herm_block rho z -> herm_block rho b) by (intros z W Hz; injection W as <-; exact Hz). apply (Q' _ Q). repeat (apply herm_scale; [reflexivity|]). exact I.
    - destruct (M_Addressing.rget (M_Addressing.p_weights_det p) q); [|discriminate]. cbn [obind] in Q. destruct (M_Addressing.rget (M_Addressing.p_local_det p) q); [|discriminate]. cbn [obind] in Q.
      assert (Q' : forall z, Some z = Some b -> herm_block rho z -> herm_block rho b) by (intros z W Hz; injection W as <-; exact Hz). apply (Q' _ Q). repeat (apply herm_scale; [reflexivity|]). apply herm_sub; [reflexivity|exact I|exact I].
  Qed.
  (** A circuit made of analog blocks and of digital gates, without sums, preserves norms and overlaps. *)
  Fixpoint gates_only (rho : env) (t : tree) : Prop :=
    match t with
    | TInt _ _ _ | TRot _ _ _ _ _ _ | TAKron _ => True
    | TLeaf b => gate_block rho b
    | TAChain bs | TChain bs | TKron bs => fold_right (fun b k => gates_only rho b /\ k) True bs
    | TAdd _ => False
    end.
  Theorem C53_unitary : forall d r t b rho n, gates_only rho t -> add_background (Some d) r t = Some (Translated b) -> (forall q, In q (qubits b) -> (q < n)%nat) ->
    forall phi psi, inner n (den rho b phi) (den rho b psi) = inner n phi psi.
  Proof.
    intros d r t b rho n G E Hq. apply C49_unitary; [exact Hq|]. cbn [add_background_hamiltonian] in E. destruct (h_interaction d r) as [h|] eqn:Eh; [|discriminate]. cbn [obind] in E.
    assert (HA : exists a, (forall y, a = Some y -> herm_block rho y) /\ translate set_iter r h a t = Some b).
    { destruct (d_pattern d) as [p|].
      - destruct (rydberg_pattern_hamiltonian p r) as [a|] eqn:Ea; [|discriminate]. cbn [obind option_map] in E. exists (Some a). split; [intros y Q; injection Q as <-; exact (herm_pattern _ _ _ _ Ea)|].
        destruct (translate set_iter r h (Some a) t); [injection E as <-; reflexivity|discriminate].
      - cbn [obind option_map] in E. exists None. split; [discriminate|]. destruct (translate set_iter r h None t); [injection E as <-; reflexivity|discriminate]. }
    clear E Hq. destruct HA as (a & Ha & E). pose proof (herm_int rho d r h Eh) as Hh. clear Eh.
    assert (Bg : forall ap, herm_block rho (background h a ap)) by (intros ap; unfold background; destruct a as [y|]; [destruct ap; [apply herm_iadd; [exact Hh|apply Ha; reflexivity]|exact Hh]|exact Hh]).
    assert (Ev : forall g e, herm_block rho g -> gate_block rho (BEvo g e)).
    { intros g e Hg. cbn [gate_block]. intros x y Hx Hy. apply C49_hermitian; [apply NoDup_nodup|intros q I; apply in_uqubits, I|exact Hg|exact Hx|exact Hy]. }
    assert (Ro : forall ap dur om de ph s, gate_block rho (build_rot_ham_evo h a ap dur (rydberg_drive_hamiltonian om de ph s r))) by (intros; apply Ev, herm_iadd; [apply Bg|apply herm_drive]).
    revert b G E. induction t as [dur s ap|dur om de ph s ap|bs IH|bs IH|b0|bs IH|bs IH|bs IH] using tree_ind'; intros b G E; cbn [translate] in E; cbn [gates_only] in G.
    - injection E as <-. apply Ev, Bg.
    - injection E as <-. apply Ro.
    - destruct (osequence (map (translate set_iter r h a) bs)) as [ys|] eqn:Es; [|discriminate]. injection E as <-. cbn [gate_block]. revert ys Es G. induction IH as [|t bs Ht _ IH]; intros ys Es G; cbn [map] in Es.
      + injection Es as <-. exact I.
      + rewrite oseq_cons in Es. destruct (translate set_iter r h a t) as [y|] eqn:Ey; [|discriminate]. destruct (osequence _) as [ys'|]; [|discriminate]. injection Es as <-. destruct G as [G1 G2]. split; [apply Ht; [exact G1|reflexivity]|apply IH; [reflexivity|exact G2]].
    - assert (b = BChain (flat_map (rotation r h a) bs)) as -> by (destruct (flat_map (rotation r h a) bs); [discriminate|injection E as <-; reflexivity]). cbn [gate_block]. apply fold_and. intros y I. apply in_flat_map in I as (t & _ & I).
      destruct t; cbn [rotation] in I; try destruct I as [<-|[]]; try destruct I. apply Ro.
    - injection E as <-. exact G.
    - destruct (osequence (map (translate set_iter r h a) bs)) as [ys|] eqn:Es; [|discriminate]. injection E as <-. cbn [gate_block]. revert ys Es G. induction IH as [|t bs Ht _ IH]; intros ys Es G; cbn [map] in Es.
      + injection Es as <-. exact I.
      + rewrite oseq_cons in Es. destruct (translate set_iter r h a t) as [y|] eqn:Ey; [|discriminate]. destruct (osequence _) as [ys'|]; [|discriminate]. injection Es as <-. destruct G as [G1 G2]. split; [apply Ht; [exact G1|reflexivity]|apply IH; [reflexivity|exact G2]].
    - destruct (osequence (map (translate set_iter r h a) bs)) as [ys|] eqn:Es; [|discriminate]. cbn [obind] in E. apply mk_kron_val in E as ->. cbn [gate_block]. revert ys Es G. induction IH as [|t bs Ht _ IH]; intros ys Es G; cbn [map] in Es.
      + injection Es as <-. exact I.
      + rewrite oseq_cons in Es. destruct (translate set_iter r h a t) as [y|] eqn:Ey; [|discriminate]. destruct (osequence _) as [ys'|]; [|discriminate]. injection Es as <-. destruct G as [G1 G2]. split; [apply Ht; [exact G1|reflexivity]|apply IH; [reflexivity|exact G2]].
    - contradiction.
  Qed.

  (** * AnalogKron *)
  (** With one rotation among its parts, an AnalogKron is that rotation. *)
  Definition is_rot (t : tree) : bool := match t with TRot _ _ _ _ _ _ => true | _ => false end.
  Theorem C53_kron_one_drive : forall d r c bs t b b', NoDup (map fst r) -> strength_of c6_dict d = Some c -> filter is_rot bs = [t] ->
    add_background (Some d) r (TAKron bs) = Some (Translated b) -> add_background (Some d) r t = Some (Translated b') -> forall rho, den rho b = den rho b'.
  Proof.
    intros d r c bs t b b' N Ec F E E' rho. pose proof (C53_translation _ _ _ _ _ N Ec E rho) as M. pose proof (C53_translation _ _ _ _ _ N Ec E' rho) as M'. cbn [means] in M.
    revert F M. generalize (den rho b). clear E b. induction bs as [|x bs IH]; intros D F M; [discriminate|].
    destruct x; cbn [filter is_rot] in F; try exact (IH D F M).
    injection F as <- F. destruct M as (A & B & HA & HB & ->). cbn [means] in M'. rewrite (evolves_unique _ _ _ _ HA M'). clear - F HB.
    assert (B = idop) as ->; [|apply seqop_id_r]. induction bs as [|x bs IH]; [exact HB|]. destruct x; cbn [filter is_rot] in F; try discriminate F; exact (IH F HB).
  Qed.
  Lemma evolves_diag F t E fs : NoDup fs -> loc (inl fs) (rdiag F) -> evolves (rdiag F) t E -> E = diag (fun x => - (t * F x))%R.
  Proof. intros N L H. rewrite <- (eop_rdiag fs t F N L). exact (evolves_unique _ _ _ _ H (evolves_eop fs _ t N L)). Qed.
  Definition pair_register : M_Register.register := [(0%nat, (0, 0)%R); (1%nat, (1, 0)%R)].
  Definition level60 : device := Device NN 60 0 None.
  Definition push (dur : R) (q : nat) : tree := TRot dur 0 1 0 (SLocal [q]) true.
  Lemma pair_background c : H_background level60 c pair_register true = rdiag (fun x => c * (b2r (x 0%nat) * b2r (x 1%nat)))%R.
  Proof.
    unfold H_background. cbn [d_pattern level60 d_coupling]. rewrite addop_zero_r. unfold H_int, pair_register, sum_of. cbn [fold_right fst snd Nat.ltb Nat.leb]. unfold pair_term. cbv zeta. cbn [fst snd].
    unfold M_Register.dist. cbn [fst snd]. replace ((0 - 1) ^ 2 + (0 - 0) ^ 2)%R with 1%R by ring. rewrite sqrt_1. rewrite !addop_zero_l, !addop_zero_r. unfold N_. rewrite !n_rdiag, rdiag_seq, rdiag_scale. apply rdiag_ext. intros x. field.
  Qed.
  Lemma push_drive q : H_drive 0 1 0 [q] = rdiag (fun x => - b2r (x q))%R.
  Proof.
    unfold H_drive, sum_of. cbn [fold_right]. unfold N_. rewrite n_rdiag, rdiag_scale. extensionality psi. extensionality x. unfold addop, scaleop, rdiag, zeroop. replace (0 / 2)%R with 0%R by field.
    rewrite !Rmult_0_l, Ropp_0. rewrite !RtoC_mult, !RtoC_opp. ring.
  Qed.
  (** "In the analog case it executes blocks parallel in time": two drives in an AnalogKron are applied one after the other, each with the
      full interaction, so the atoms interact for twice the duration. *)
  Theorem C53_parallel_refuted : forall c, c6_dict 60 = Some c -> c <> 0%R -> exists dur b E,
    add_background (Some level60) pair_register (TAKron [push dur 0; push dur 1]) = Some (Translated b) /\
    evolves (addop (H_background level60 c pair_register true) (addop (H_drive 0 1 0 [0%nat]) (H_drive 0 1 0 [1%nat]))) (dur / 1000) E /\
    forall rho, den rho b <> E.
  Proof.
    intros c Ec Hc. set (dur := (1000 * (PI / c))%R). exists dur.
    assert (K : exists b, add_background (Some level60) pair_register (TAKron [push dur 0; push dur 1]) = Some (Translated b)).
    { apply C53_defined; [exact I|]. split; [exists c; exact Ec|]. split; [discriminate|]. repeat eexists. left. reflexivity. }
    destruct K as [b E]. exists b.
    assert (Nd : NoDup [0%nat; 1%nat]) by (repeat constructor; simpl; intuition lia).
    assert (Lb : loc (inl [0%nat; 1%nat]) (H_background level60 c pair_register true)) by (apply loc_background; intros q I; simpl in *; lia).
    assert (Ld : forall q, In q [0%nat; 1%nat] -> loc (inl [0%nat; 1%nat]) (H_drive 0 1 0 [q])) by (intros q I; apply loc_drive; intros p [<-|[]]; exact I).
    assert (L2 : loc (inl [0%nat; 1%nat]) (addop (H_background level60 c pair_register true) (addop (H_drive 0 1 0 [0%nat]) (H_drive 0 1 0 [1%nat])))) by (apply loc_add; [exact Lb|apply loc_add; apply Ld; simpl; tauto]).
    assert (L1 : forall q, In q [0%nat; 1%nat] -> loc (inl [0%nat; 1%nat]) (addop (H_background level60 c pair_register true) (H_drive 0 1 0 [q]))) by (intros q I; apply loc_add; [exact Lb|apply Ld, I]).
    eexists. split; [exact E|]. split; [apply (evolves_eop _ _ _ Nd L2)|]. intros rho Q.
    assert (M := C53_translation level60 pair_register c _ b ltac:(repeat constructor; simpl; intuition lia) Ec E rho). cbn [means push] in M.
    destruct M as (A & B & MA & (A' & B' & MB & -> & ->) & D). rewrite D in Q. clear D E. unfold drives in MA, MB. cbn [driven] in MA, MB.
    specialize (L1 0%nat ltac:(simpl; tauto)) as L10. specialize (L1 1%nat ltac:(simpl; tauto)) as L11. clear L1.
    rewrite pair_background, push_drive, rdiag_add in MA, MB, L10, L11. rewrite !push_drive, pair_background, !rdiag_add in Q, L2.
    apply (evolves_diag _ _ _ _ Nd L10) in MA. apply (evolves_diag _ _ _ _ Nd L11) in MB. subst A A'. rewrite eop_rdiag in Q by assumption. rewrite seqop_id_r, diag_seq in Q.
    apply (f_equal (fun O : Op => O (fun _ => RtoC 1) (fun _ => true))) in Q. unfold diag in Q. rewrite !Cmult_1_r in Q. unfold b2r in Q.
    set (t := (PI / c)%R) in *. assert (T : (dur / 1000 = t)%R) by (unfold dur; field). rewrite T in Q. assert (TC : (t * c = PI)%R) by (unfold t; field; exact Hc).
    replace (- (t * (c * (1 * 1) + - (1))) + - (t * (c * (1 * 1) + - (1))))%R with (2 * t - 2 * PI)%R in Q by (rewrite <- TC; ring).
    replace (- (t * (c * (1 * 1) + (- (1) + - (1)))))%R with (2 * t - PI)%R in Q by (rewrite <- TC; ring).
    apply (f_equal (fun z => z * cis (- (2 * t)))) in Q. rewrite !cis_add in Q. replace (2 * t - 2 * PI + - (2 * t))%R with (- (2 * PI))%R in Q by ring. replace (2 * t - PI + - (2 * t))%R with (- PI)%R in Q by ring.
    unfold cis in Q. rewrite !cos_neg, cos_2PI, cos_PI in Q. injection Q as Q. lra.
  Qed.
  (** The rotations inside an AnalogKron or AnalogChain that is itself part of an AnalogKron have no effect. *)
  Theorem C53_nested_kron_refuted : forall d r inner t, (exists bs, inner = TAKron bs \/ inner = TAChain bs) ->
    add_background (Some d) r (TAKron [inner; t]) = add_background (Some d) r (TAKron [t]).
  Proof. intros d r inner t (bs & [-> | ->]); reflexivity. Qed.
  (** Waiting on two qubits in parallel can be built but not translated. *)
  Theorem C53_wait_kron_refuted : forall d r dur, (0 <= dur)%R ->
    (exists k, M_Analog.mk_kron set_iter [M_Analog.ALeaf dur (SLocal [0%nat]); M_Analog.ALeaf dur (SLocal [1%nat])] = Some k) /\
    forall o, add_background (Some d) r (TAKron [TInt dur (SLocal [0%nat]) true; TInt dur (SLocal [1%nat]) true]) = Some o -> False.
  Proof.
    intros d r dur Hd. split.
    - unfold M_Analog.mk_kron. assert (C0 : M_Analog.np_isclose dur dur = true).
      { unfold M_Analog.np_isclose. destruct (Rle_dec _ _) as [_|H]; [reflexivity|]. exfalso. apply H. rewrite Rminus_diag_eq, Rabs_R0 by reflexivity. pose proof (Rabs_pos dur). lra. }
      cbn [M_Analog.duration M_Analog.kron_loop M_Analog.qubit_support M_Analog.is_global]. rewrite C0. cbn [qs_is_disjoint existsb negb].
      change (qs_add set_iter (SLocal []) (SLocal [0%nat])) with (SLocal (set_iter [0%nat])).
      assert (D : qs_is_disjoint (SLocal (set_iter [0%nat])) (SLocal [1%nat]) = true).
      { apply L_QubitSupport.qs_disjoint_spec. intros q H1 [<-|[]]. apply (Hs [0%nat]) in H1. destruct H1 as [|[]]; discriminate. }
      rewrite D. cbn [negb]. eexists; reflexivity.
    - intros o E. cbn [add_background_hamiltonian] in E. destruct (h_interaction d r); [|discriminate]. cbn [obind] in E.
      destruct (d_pattern d) as [p|]; [destruct (rydberg_pattern_hamiltonian p r); [|discriminate]|]; discriminate.
  Qed.
  (** A digital gate and an analog rotation on different qubits can be put in parallel but the translation raises. *)
  Theorem C53_mixed_kron_refuted : forall c th, c6_dict 60 = Some c ->
    add_background (Some level60) pair_register (TKron [TLeaf (BPrim PX 0); AnalogRX th (SLocal [1%nat]) true]) = None.
  Proof.
    intros c th Ec.
    assert (Eh : exists w, h_interaction level60 pair_register = Some (BAdd [BScale (BKron [BPrim (PN true) 0; BPrim (PN true) 1]) w])).
    { unfold rydberg_interaction_hamiltonian. cbn [level60 d_coupling d_level d_pattern]. rewrite Ec. cbn [obind]. unfold hamiltonian_factory. cbn [int_fn option_map obind preprocess_strengths].
      change (hpairs {| hnodes := M_Register.support pair_register; hedges := [] |}) with [(0%nat, 1%nat)]. change (map snd (M_Register.distances pair_register)) with [M_Register.pair_dist pair_register (0%nat, 1%nat)].
      cbn [length map Nat.eqb obind combine fst snd]. change (interaction_nn set_iter 0 1) with (two set_iter (PN true) 0 1). rewrite (two_some set_iter Hs). eexists. reflexivity. }
    destruct Eh as [w Eh]. cbn [add_background_hamiltonian]. rewrite Eh. cbn [obind level60 d_pattern translate AnalogRX analog_rot map osequence option_map].
    match goal with |- option_map _ (mk_kron set_iter ?l) = _ => destruct (mk_kron set_iter l) as [y|] eqn:Ek; [|reflexivity] end.
    apply (mk_kron_some set_iter Hs) in Ek as (_ & _ & FO). exfalso. inversion FO as [|? ? F1 _]. inversion F1 as [|? ? F2 _]. apply (F2 0%nat); left; reflexivity.
  Qed.
End C53.

(** * Instances *)
Definition ex_pattern : M_Addressing.pattern :=
  M_Addressing.Build_pattern 2 [(0%nat, 1 / 2); (1%nat, 1)]%R [(0%nat, 1); (1%nat, 0)]%R 2 (-3) [(0%nat, 1); (1%nat, 1)]%R [(0%nat, 1); (1%nat, 1 / 2)]%R 1 1.
Definition ex_device : device := Device NN 60 3700 (Some ex_pattern).
Definition ex_c6 (level : nat) : option R := if Nat.eqb level 60 then Some (86572302 / 100)%R else None.
Definition ex_tree : tree :=
  TChain [TLeaf (BPrim PH 0); TAChain [AnalogInteraction 200 SGlobal true; AnalogRX 1 SGlobal false]; TAKron [TRot 100 2 1 (1 / 2) (SLocal [1%nat]) true; TInt 100 (SLocal [0%nat]) true]].
Example C53_witness : NoDup (map fst pair_register) /\ strength_of ex_c6 ex_device = Some (86572302 / 100)%R /\ kron_free ex_tree /\ gates_only (fun _ => 0%R) ex_tree /\
  exists b, add_background_hamiltonian (nodup Nat.eq_dec) (fun _ => true) ex_c6 (Some ex_device) pair_register ex_tree = Some (Translated b).
Proof.
  split; [repeat constructor; simpl; intuition lia|]. split; [reflexivity|]. split; [cbn; tauto|]. split; [cbn; unfold unitary_prim; tauto|].
  apply C53_defined; [|cbn; tauto|].
  - intros l. split; [apply NoDup_nodup|intros q; apply nodup_In].
  - split; [eexists; reflexivity|]. split.
    + intros p Q q Hq. injection Q as <-. cbn in Hq. destruct q as [|[|q]]; [split; discriminate|split; discriminate|lia].
    + cbn. repeat split. repeat eexists. left. reflexivity.
Qed.
(** A single atom turned by AnalogRX. *)
Example C53_rotations_witness : forall th rho, exists b,
  add_background_hamiltonian (nodup Nat.eq_dec) (fun _ => true) ex_c6 (Some level60) [(0%nat, (0, 0)%R)] (AnalogRX th SGlobal true) = Some (Translated b) /\ den rho b = gate1 0 (rot_mat RX_ th).
Proof.
  intros th rho. assert (So : set_order (nodup Nat.eq_dec)) by (intros l; split; [apply NoDup_nodup|intros q; apply nodup_In]).
  assert (K : exists b, add_background_hamiltonian (nodup Nat.eq_dec) (fun _ => true) ex_c6 (Some level60) [(0%nat, (0, 0)%R)] (AnalogRX th SGlobal true) = Some (Translated b)).
  { apply C53_defined; [exact So|exact I|]. split; [eexists; reflexivity|]. split; [discriminate|exact I]. }
  destruct K as [b E]. exists b. split; [exact E|].
  assert (Nd : NoDup (map fst [(0%nat, (0, 0)%R)])) by (repeat constructor; intros []).
  destruct (C53_rotations (nodup Nat.eq_dec) So (fun _ => true) ex_c6 level60 [(0%nat, (0, 0)%R)] (86572302 / 100)%R SGlobal true th b Nd eq_refl (or_introl eq_refl) (or_introl eq_refl) Nd) as (H & _).
  rewrite (H E rho). reflexivity.
Qed.

Print Assumptions C53_drive.
Print Assumptions C53_pattern.
Print Assumptions C53_interaction.
Print Assumptions C53_interaction_defined.
Print Assumptions C53_translation.
Print Assumptions C53_determined.
Print Assumptions C53_no_device.
Print Assumptions C53_analog_rot.
Print Assumptions C53_defined.
Print Assumptions C53_digital.
Print Assumptions C53_durations_add.
Print Assumptions C53_rotations.
Print Assumptions C53_unitary.
Print Assumptions C53_kron_one_drive.
Print Assumptions C53_parallel_refuted.
Print Assumptions C53_nested_kron_refuted.
Print Assumptions C53_wait_kron_refuted.
Print Assumptions C53_mixed_kron_refuted.
