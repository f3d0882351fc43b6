(** The parameter-shift rules as linear combinations of shifted values, and the dictionary of rules of a circuit. *)
From Coq Require Import String Reals List Arith Bool Lia Lra FunctionalExtensionality Permutation.
From Coquelicot Require Import Coquelicot.
From Coq Require Import List.
From Verif Require Import S_Ops L_Ops M_Block S_Den L_Den L_Loc L_Adj L_ExpMul L_ExpOp L_Diag P_Unitary M_PSR S_PSR P_PSR M_Tensor M_Transpile M_Gradient S_Gradient L_Gradient L_GradientDiff.
Import ListNotations.
Open Scope R_scope.

(** * Linear systems *)
Lemma dot_nth row x n : length row = n -> length x = n -> dot row x = rsum (map (fun j => nth j row 0 * nth j x 0) (seq 0 n)).
Proof.
  revert row x. induction n as [|n IH]; intros [|a row] [|b x] H1 H2; try discriminate; [reflexivity|].
  unfold dot. cbn [combine map rsum fst snd seq]. fold (dot row x). rewrite (IH row x) by (simpl in *; lia). cbn [nth]. f_equal.
  rewrite <- seq_shift, map_map. reflexivity.
Qed.
Lemma rsum_swap {A B} (f : A -> B -> R) l m : rsum (map (fun a => rsum (map (fun b => f a b) m)) l) = rsum (map (fun b => rsum (map (fun a => f a b) l)) m).
Proof.
  induction l as [|a l IH]; cbn [map rsum]; [symmetry; apply rsum_zero; reflexivity|]. rewrite IH, <- rsum_plus. reflexivity.
Qed.
Definition unit_vec (n i : nat) : list R := map (fun j => if Nat.eqb j i then 1 else 0) (seq 0 n).
Lemma nth_seq_map' (f : nat -> R) n j : (j < n)%nat -> nth j (map f (seq 0 n)) 0 = f j.
Proof.
  intros H. rewrite (nth_indep _ 0 (f 0%nat)) by (rewrite map_length, seq_length; exact H). rewrite map_nth. f_equal. apply seq_nth. exact H.
Qed.
Lemma rsum_unit (f : nat -> R) n i : (i < n)%nat -> rsum (map (fun j => f j * (if Nat.eqb j i then 1 else 0)) (seq 0 n)) = f i.
Proof.
  intros H. induction n as [|n IH]; [lia|]. rewrite seq_S, map_app.
  assert (RA : forall l m, rsum (l ++ m) = rsum l + rsum m) by (induction l as [|x l IHl]; intros m; cbn [app rsum]; [ring|rewrite IHl; ring]).
  rewrite RA. cbn [map rsum]. rewrite Nat.add_0_l. destruct (Nat.eq_dec n i) as [->|N].
  - rewrite Nat.eqb_refl. rewrite rsum_zero; [ring|]. intros j Hj. apply in_seq in Hj. destruct (Nat.eqb_spec j i); [lia|ring].
  - rewrite IH by lia. destruct (Nat.eqb_spec n i); [lia|ring].
Qed.
(** The solution of a non-singular system depends linearly on the right-hand side. *)
Lemma solve_linear n solve M : solver_ok n solve -> square n M -> nonsingular n M ->
  forall G, length G = n -> exists c : list R, length c = n /\
    forall F, length F = n -> exists X, solve M F = Some X /\ dot G X = dot c F.
Proof.
  intros Hs Sq Ns G HG.
  assert (Xs : forall i, exists X, solve M (unit_vec n i) = Some X).
  { intros i. destruct (Hs M (unit_vec n i) Sq ltac:(unfold unit_vec; rewrite map_length, seq_length; reflexivity)) as [E _]. exact (E Ns). }
  assert (Y : forall i, (i <= n)%nat -> exists Ys : list (list R), length Ys = i /\ forall j, (j < i)%nat -> solve M (unit_vec n j) = Some (nth j Ys [])).
  { induction i as [|i IH]; intros Hi; [exists []; split; [reflexivity|intros; lia]|]. destruct (IH ltac:(lia)) as (Ys & L & P). destruct (Xs i) as [X HX].
    exists (Ys ++ [X]). split; [rewrite app_length, L; simpl; lia|]. intros j Hj. destruct (Nat.eq_dec j i) as [->|N].
    - rewrite app_nth2 by lia. rewrite L, Nat.sub_diag. exact HX.
    - rewrite app_nth1 by lia. apply P. lia. }
  destruct (Y n (le_n n)) as (Ys & LY & PY). exists (map (fun i => dot G (nth i Ys [])) (seq 0 n)). split; [rewrite map_length, seq_length; reflexivity|].
  intros F HF. destruct (Hs M F Sq HF) as [E _]. destruct (E Ns) as [X HX]. exists X. split; [exact HX|].
  destruct (proj2 (Hs M F Sq HF) X HX) as (_ & LX & EX).
  assert (LYi : forall i, (i < n)%nat -> length (nth i Ys []) = n /\ map (fun row => dot row (nth i Ys [])) M = unit_vec n i).
  { intros i Hi. destruct (proj2 (Hs M (unit_vec n i) Sq ltac:(unfold unit_vec; rewrite map_length, seq_length; reflexivity)) _ (PY i Hi)) as (_ & a & b). auto. }
  assert (XE : X = map (fun j => rsum (map (fun i => nth i F 0 * nth j (nth i Ys []) 0) (seq 0 n))) (seq 0 n)).
  { apply Ns; [exact LX|rewrite map_length, seq_length; reflexivity|]. intros row Hr.
    assert (Lr : length row = n) by (apply Sq; exact Hr).
    apply In_nth with (d := []) in Hr as (k & Hk & Er). destruct Sq as [LM _].
    assert (D1 : dot row X = nth k F 0).
    { rewrite <- EX. rewrite (nth_indep _ 0 (dot [] X)) by (rewrite map_length; exact Hk). rewrite (map_nth (fun row => dot row X) M [] k), Er. reflexivity. }
    assert (D2 : forall i, (i < n)%nat -> dot row (nth i Ys []) = if Nat.eqb k i then 1 else 0).
    { intros i Hi. destruct (LYi i Hi) as [_ Q]. transitivity (nth k (map (fun row => dot row (nth i Ys [])) M) 0).
      - rewrite (nth_indep _ 0 (dot [] (nth i Ys []))) by (rewrite map_length; exact Hk). rewrite (map_nth (fun row => dot row (nth i Ys [])) M [] k), Er. reflexivity.
      - rewrite Q. unfold unit_vec. apply (nth_seq_map' (fun j => if Nat.eqb j i then 1 else 0)). lia. }
    rewrite D1, (dot_nth row _ n Lr) by (rewrite map_length, seq_length; reflexivity).
    transitivity (rsum (map (fun j => rsum (map (fun i => nth j row 0 * (nth i F 0 * nth j (nth i Ys []) 0)) (seq 0 n))) (seq 0 n))).
    - rewrite rsum_swap. transitivity (rsum (map (fun i => nth i F 0 * (if Nat.eqb i k then 1 else 0)) (seq 0 n))); [symmetry; apply (rsum_unit (fun i => nth i F 0)); lia|].
      apply rsum_ext. intros i Hi. apply in_seq in Hi. transitivity (nth i F 0 * dot row (nth i Ys [])).
      + rewrite D2 by lia. rewrite Nat.eqb_sym. reflexivity.
      + rewrite (dot_nth row _ n Lr) by (apply LYi; lia). rewrite <- rsum_scal. apply rsum_ext. intros; ring.
    - apply rsum_ext. intros j Hj. apply in_seq in Hj. rewrite (nth_seq_map' (fun j => rsum (map (fun i => nth i F 0 * nth j (nth i Ys []) 0) (seq 0 n)))) by lia.
      rewrite <- rsum_scal. reflexivity. }
  rewrite (dot_nth G X n HG LX), (dot_nth _ F n) by (try exact HF; rewrite map_length, seq_length; reflexivity). rewrite XE.
  transitivity (rsum (map (fun j => rsum (map (fun i => nth j G 0 * (nth i F 0 * nth j (nth i Ys []) 0)) (seq 0 n))) (seq 0 n))).
  - apply rsum_ext. intros j Hj. apply in_seq in Hj. rewrite (nth_seq_map' (fun j => rsum (map (fun i => nth i F 0 * nth j (nth i Ys []) 0) (seq 0 n)))) by lia. rewrite <- rsum_scal. reflexivity.
  - rewrite rsum_swap. apply rsum_ext. intros i Hi. apply in_seq in Hi. rewrite (nth_seq_map' (fun i => dot G (nth i Ys []))) by lia.
    rewrite (dot_nth G _ n HG) by (apply LYi; lia). rewrite Rmult_comm, <- rsum_scal. apply rsum_ext. intros; ring.
Qed.

(** * Every rule is a fixed linear combination of differences *)
Definition shifts_form (cs : list (R * R)) (E : params -> R) (rho : params) (u : string) : R :=
  rsum (map (fun c => fst c * (E (shifted rho u (rho u + snd c)) - E (shifted rho u (rho u - snd c)))) cs).
Lemma combine_map_rsum (c l : list R) (f : R -> R) : length c = length l -> dot c (map f l) = rsum (map (fun p => fst p * f (snd p)) (combine c l)).
Proof.
  revert l. induction c as [|a c IH]; intros [|b l] H; try discriminate; [reflexivity|]. unfold dot. cbn [map combine rsum fst snd]. f_equal. apply IH. simpl in H. lia.
Qed.
Lemma psr_square gaps shifts : length shifts = length gaps -> square (length gaps) (psr_matrix gaps shifts).
Proof. intros H. split; [unfold psr_matrix; rewrite map_length; exact H|]. intros row Hr. unfold psr_matrix in Hr. apply in_map_iff in Hr as (s & <- & _). apply map_length. Qed.
Lemma psr_form solve l prefac : ((2 <= length (spectral_gaps_of l))%nat -> solver_ok (length (spectral_gaps_of l)) solve) ->
  (forall E rho u, general_psr solve l prefac E rho u = None) \/
  exists cs, forall E rho u, general_psr solve l prefac E rho u = Some (shifts_form cs E rho u).
Proof.
  intros Hs. unfold general_psr. destruct (spectral_gaps_of l) as [|g1 [|g2 r]] eqn:EG.
  - left. reflexivity.
  - right. exists [(g1 / (4 * sin (g1 * (prefac * (PI / 2)) / 2)), prefac * (PI / 2))]. intros E rho u. unfold single_gap_psr, shifts_form. cbn [map rsum fst snd]. f_equal. unfold Rdiv. ring.
  - rewrite <- EG in *. set (gaps := spectral_gaps_of l) in *. set (sh := multi_shifts prefac (length gaps)).
    assert (Lsh : length sh = length gaps) by (unfold sh, multi_shifts, linspace; rewrite !map_length, seq_length; reflexivity).
    assert (H2 : (2 <= length gaps)%nat) by (rewrite EG; simpl; lia). specialize (Hs H2).
    assert (MG : forall E rho u, multi_gap_psr solve E rho u gaps prefac =
       option_map (dot gaps) (solve (psr_matrix gaps sh) (map (fun s => E (shifted rho u (rho u + s)) - E (shifted rho u (rho u - s))) sh))).
    { intros E rho u. unfold multi_gap_psr, multi_gap_with. fold sh. fold (psr_matrix gaps sh). rewrite EG at 1. destruct (solve _ _); reflexivity. }
    destruct (Classical_Prop.classic (nonsingular (length gaps) (psr_matrix gaps sh))) as [Ns|Ns].
    + right. destruct (solve_linear (length gaps) solve _ Hs (psr_square gaps sh Lsh) Ns gaps eq_refl) as (c & Lc & P).
      exists (combine c sh). intros E rho u. transitivity (multi_gap_psr solve E rho u gaps prefac); [rewrite EG; reflexivity|]. rewrite MG.
      destruct (P (map (fun s => E (shifted rho u (rho u + s)) - E (shifted rho u (rho u - s))) sh) ltac:(rewrite map_length; exact Lsh)) as (X & HX & D).
      rewrite HX. cbn [option_map]. f_equal. rewrite D. unfold shifts_form. apply combine_map_rsum. lia.
    + left. intros E rho u. transitivity (multi_gap_psr solve E rho u gaps prefac); [rewrite EG; reflexivity|]. rewrite MG.
      destruct (solve _ _) as [X|] eqn:ES; [|reflexivity]. exfalso. apply Ns.
      apply (proj2 (Hs _ _ (psr_square gaps sh Lsh) ltac:(rewrite map_length; exact Lsh)) X ES).
Qed.

(** * Exactness on trigonometric polynomials *)
Lemma psr_exact solve l prefac f E rho u d :
  ((2 <= length (spectral_gaps_of l))%nat -> solver_ok (length (spectral_gaps_of l)) solve) ->
  (forall g, spectral_gaps_of l = [g] -> sin (g * (prefac * (PI / 2)) / 2) <> 0) ->
  trig (spectral_gaps_of l) f -> (forall t, E (shifted rho u t) = f t) ->
  general_psr solve l prefac E rho u = Some d -> is_derive f (rho u) d.
Proof.
  intros Hs H1 T HE H. unfold general_psr in H. destruct (spectral_gaps_of l) as [|g1 [|g2 r]] eqn:EG; [discriminate H| |].
  - replace d with (single_gap_psr E rho u g1 (prefac * (PI / 2))) by congruence. apply (single_exact [g1]); [reflexivity|exact T|exact HE|apply H1; reflexivity].
  - unfold multi_gap_psr in H. eapply multi_exact; [| |apply Hs; simpl; lia|exact T|exact HE|exact H]; [discriminate|].
    unfold multi_shifts, linspace. rewrite !map_length, seq_length. reflexivity.
Qed.
Lemma trig_scal G c f : trig G f -> trig G (fun t => c * f t).
Proof.
  intros (a0 & a & b & E). exists (c * a0), (fun g => c * a g), (fun g => c * b g). intro t. rewrite E, Rmult_plus_distr_l, <- rsum_scal. f_equal. apply rsum_ext. intros g _. unfold tterm. ring.
Qed.
Lemma trig_shift G s f : trig G f -> trig G (fun t => f (t + s)).
Proof.
  intros (a0 & a & b & E). exists a0, (fun g => a g * cos (g * s / 2) + b g * sin (g * s / 2)), (fun g => b g * cos (g * s / 2) - a g * sin (g * s / 2)).
  intro t. rewrite E. f_equal. apply rsum_ext. intros g _. unfold tterm. replace (g * (t + s) / 2) with (g * t / 2 + g * s / 2) by field. rewrite cos_plus, sin_plus. ring.
Qed.
Lemma trig_rsum {A} G (F : A -> R -> R) l : (forall a, In a l -> trig G (F a)) -> trig G (fun t => rsum (map (fun a => F a t) l)).
Proof. induction l as [|a l IH]; intros H; cbn [map rsum]; [apply trig_const|]. apply trig_plus; [apply H; left; reflexivity|apply IH; intros; apply H; right; assumption]. Qed.
Lemma gaps_nodup l : NoDup (spectral_gaps_of l).
Proof. apply inc_nodup. unfold spectral_gaps_of. apply inc_filter. apply unique_spec. Qed.

Lemma with_twice rho u s t : with_param (with_param rho u s) u t = with_param rho u t.
Proof. extensionality v. unfold with_param. destruct (string_dec v u); reflexivity. Qed.
Lemma with_comm rho u v s t : u <> v -> with_param (with_param rho u s) v t = with_param (with_param rho v t) u s.
Proof. intros N. extensionality w. unfold with_param. destruct (string_dec w v), (string_dec w u); congruence. Qed.

(** Functions of the dictionary that are trigonometric polynomials in each of the parameters [u] with the gaps [gap u]. *)
Section Closed.
  Variable needs : string -> bool.
  Variable rho0 : env.
  Variable dom : string -> list R -> Prop.
  Hypothesis dom_needs : forall u G, dom u G -> needs u = true.
  Notation ok := (agrees needs rho0).
  Definition trig_all (F : env -> R) : Prop := forall u G, dom u G -> forall rho, ok rho -> trig G (fun t => F (with_param rho u t)).
  Lemma trig_all_form F cs u : trig_all F -> needs u = true -> trig_all (fun rho => shifts_form cs F rho u).
  Proof.
    intros H Nu v G Hv rho Hr. unfold shifts_form. rewrite !shifted_def.
    apply (trig_rsum G (fun c t => fst c * (F (with_param (with_param rho v t) u (with_param rho v t u + snd c)) - F (with_param (with_param rho v t) u (with_param rho v t u - snd c)))) cs).
    intros c _. apply trig_scal. 
    assert (K : forall s, trig G (fun t => F (with_param (with_param rho v t) u (with_param rho v t u + s)))).
    { intros s. destruct (string_dec u v) as [->|N].
      - eapply trig_ext; [|apply (trig_shift G s _ (H v G Hv rho Hr))]. intro t. cbv beta. rewrite with_same, with_twice. reflexivity.
      - eapply trig_ext; [|apply (H v G Hv (with_param rho u (rho u + s)) (agrees_with needs rho0 rho u _ Hr Nu))]. intro t. cbv beta.
        rewrite (with_other rho v t u N), (with_comm rho u v _ t N). reflexivity. }
    apply (trig_ext G (fun t => F (with_param (with_param rho v t) u (with_param rho v t u + snd c)) + -1 * F (with_param (with_param rho v t) u (with_param rho v t u + - snd c)))).
    - intro t. unfold Rminus. ring.
    - apply trig_plus; [apply K|apply trig_scal, K].
  Qed.
End Closed.

(** * The dictionary *)
Section Dict.
  Context {A : Type}.
  Implicit Types (d es : list (string * A)).
  Lemma in_dset k v d x : In x (dset k v d) -> x = (k, v) \/ In x d.
  Proof.
    induction d as [|[k' v'] r IH]; cbn [dset]; [intros [<- | []]; auto|]. destruct (String.eqb_spec k' k) as [->|N].
    - intros [<- | H]; [auto|right; right; exact H].
    - intros [<- | H]; [right; left; reflexivity|]. destruct (IH H) as [->|H']; [auto|right; right; exact H'].
  Qed.
  Lemma keys_dset k v d x : In x (map fst (dset k v d)) <-> x = k \/ In x (map fst d).
  Proof.
    induction d as [|[k' v'] r IH]; cbn [dset map fst]; [simpl; intuition|]. destruct (String.eqb_spec k' k) as [->|N]; cbn [map fst In]; [intuition|]. rewrite IH. intuition.
  Qed.
  Lemma nodup_dset k v d : NoDup (map fst d) -> NoDup (map fst (dset k v d)).
  Proof.
    induction d as [|[k' v'] r IH]; cbn [dset map fst]; intros H; [constructor; [intros []|constructor]|]. inversion H as [|? ? H1 H2]; subst.
    destruct (String.eqb_spec k' k) as [->|N]; cbn [map fst]; constructor; auto. intros K. apply keys_dset in K as [->|K]; contradiction.
  Qed.
  Lemma in_dputs es d x : In x (fold_left dput es d) -> In x es \/ In x d.
  Proof.
    revert d. induction es as [|[k v] es IH]; intros d; cbn [fold_left]; [auto|]. intros H. destruct (IH _ H) as [H'|H']; [left; right; exact H'|].
    apply in_dset in H' as [->|H']; [left; left; reflexivity|right; exact H'].
  Qed.
  Lemma keys_dputs es d x : In x (map fst (fold_left dput es d)) <-> In x (map fst es) \/ In x (map fst d).
  Proof.
    revert d. induction es as [|[k v] es IH]; intros d; cbn [fold_left]; [simpl; intuition|]. rewrite IH. unfold dput. rewrite keys_dset. cbn [map fst snd In]. intuition.
  Qed.
  Lemma nodup_dputs es d : NoDup (map fst d) -> NoDup (map fst (fold_left dput es d)).
  Proof. revert d. induction es as [|[k v] es IH]; intros d H; cbn [fold_left]; [exact H|]. apply IH, nodup_dset, H. Qed.
End Dict.

(** The assignments made by [uuid_to_block], in order. *)
Fixpoint entries (b : block) : list (string * block) :=
  match b with
  | BScale b' e => map (fun u => (u, b)) (labels e) ++ entries b'
  | BChain bs | BKron bs | BAdd bs => flat_map entries bs
  | BRot _ _ e => map (fun u => (u, b)) (labels e)
  | BU _ e1 e2 e3 => map (fun u => (u, b)) (labels e1 ++ labels e2 ++ labels e3)
  | BPCtrl _ b' => map (fun u => (u, b)) (match b' with BRot _ _ e => labels e | BU _ e1 e2 e3 => labels e1 ++ labels e2 ++ labels e3 | _ => [] end)
  | BEvo g t => entries g ++ map (fun u => (u, b)) (labels t)
  | _ => []
  end.
Lemma uuid_to_block_entries b : forall d, uuid_to_block b d = fold_left dput (entries b) d.
Proof.
  induction b as [p q|k br qs|r q e|q a b c|a b|c a b|cs b IH|cs b IH|b e IH|bs IH|bs IH|bs IH|m qs|g t IH] using block_ind'; intros d; cbn [uuid_to_block entries]; try reflexivity.
  - rewrite fold_left_app, IH. reflexivity.
  - revert d. induction IH as [|b bs Hb Hbs IHbs]; intros d; cbn [fold_left flat_map]; [reflexivity|]. rewrite fold_left_app, Hb, IHbs. reflexivity.
  - revert d. induction IH as [|b bs Hb Hbs IHbs]; intros d; cbn [fold_left flat_map]; [reflexivity|]. rewrite fold_left_app, Hb, IHbs. reflexivity.
  - revert d. induction IH as [|b bs Hb Hbs IHbs]; intros d; cbn [fold_left flat_map]; [reflexivity|]. rewrite fold_left_app, Hb, IHbs. reflexivity.
  - rewrite fold_left_app, IH. reflexivity.
Qed.
Lemma labels_evars e u : In u (labels e) -> In u (evars e).
Proof. destruct e; simpl; tauto. Qed.
Lemma in_entries_occ b u b' : In (u, b') (entries b) -> In u (occ b).
Proof.
  revert b'. induction b as [p q|k br qs|r q e|q a b c|a b|c a b|cs b IH|cs b IH|b e IH|bs IH|bs IH|bs IH|m qs|g t IH] using block_ind'; intros b' H; cbn [entries occ] in *; try contradiction.
  - apply in_map_iff in H as (v & E & H). injection E as -> _. apply labels_evars, H.
  - apply in_map_iff in H as (v & E & H). injection E as -> _. rewrite !in_app_iff in *. pose proof (labels_evars a u). pose proof (labels_evars b u). pose proof (labels_evars c u). tauto.
  - apply in_map_iff in H as (v & E & H). injection E as -> _. destruct b; try contradiction; cbn [occ]; rewrite ?in_app_iff in *; intuition auto using labels_evars.
  - apply in_app_iff in H as [H|H]; apply in_app_iff; [left|right; eapply IH, H]. apply in_map_iff in H as (v & E & H). injection E as -> _. apply labels_evars, H.
  - apply in_flat_map in H as (x & Hx & H). apply in_flat_map. exists x. split; [exact Hx|]. rewrite Forall_forall in IH. eapply IH; eassumption.
  - apply in_flat_map in H as (x & Hx & H). apply in_flat_map. exists x. split; [exact Hx|]. rewrite Forall_forall in IH. eapply IH; eassumption.
  - apply in_flat_map in H as (x & Hx & H). apply in_flat_map. exists x. split; [exact Hx|]. rewrite Forall_forall in IH. eapply IH; eassumption.
  - apply in_app_iff in H as [H|H]; apply in_app_iff; [left; eapply IH, H|right]. apply in_map_iff in H as (v & E & H). injection E as -> _. apply labels_evars, H.
Qed.
