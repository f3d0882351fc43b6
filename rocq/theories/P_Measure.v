(** C14: expectation values estimated from samples. *)
From Coq Require Import String Reals List Arith Bool Lia Lra FunctionalExtensionality Permutation.
From Coquelicot Require Import Coquelicot.
From Coq Require Import List.
From Verif Require Import S_Ops L_Ops M_QubitSupport M_Block S_Den L_Den L_Loc L_Adj L_Gates M_BlockOps M_Transpile M_PSR S_PSR P_PSR S_State L_Inner M_Pauli P_Pauli M_Measure.
From Verif Require Import P_Hea.
Import ListNotations.
Open Scope R_scope.

(** Specification: the sign (-1)^(number of ones of the outcome [k] at the listed positions), counted with repetitions. *)
Definition sign (support : list nat) (k : list bool) : R := fold_right (fun i s => (if nth i k false then -1 else 1) * s) 1 support.
(** Specification: weighted sum over the outcomes of a histogram. *)
Definition over (c : counter) (w : list bool -> R) : R := rsum (map (fun kv => snd kv * w (fst kv)) c).
Definition total (c : counter) : R := over c (fun _ => 1).
Definition counts_ok (c : counter) : Prop := forall k v, In (k, v) c -> 0 <= v.

Lemma over_app c d w : over (c ++ d) w = over c w + over d w.
Proof. unfold over. rewrite map_app. induction c as [|x c IH]; simpl; [lra|]. rewrite IH. lra. Qed.
Lemma over_filter_pos c w : counts_ok c -> over (filter (fun kv => pos (snd kv)) c) w = over c w.
Proof.
  induction c as [|[k v] c IH]; intros H; [reflexivity|]. cbn [filter snd]. assert (H' : counts_ok c) by (intros k' v' I; apply (H k' v'); right; exact I).
  specialize (IH H'). destruct (pos v) eqn:P; unfold over in *; cbn [map fst snd rsum]; rewrite IH; [reflexivity|].
  unfold pos in P. destruct (Rlt_dec 0 v) as [Q|Q]; [discriminate|]. assert (0 <= v) by (apply (H k); left; reflexivity). replace v with 0 by lra. lra.
Qed.
Lemma has_in c k : has c k = true <-> In k (map fst c).
Proof.
  unfold has. rewrite existsb_exists, in_map_iff. split; intros (x & A & B).
  - exists x. apply eqbits_true in B. auto.
  - exists x. split; [exact B|apply eqbits_true; exact A].
Qed.
Lemma over_map_add c k v w : NoDup (map fst c) -> over (map (fun kv => (fst kv, snd kv + cget [(k, v)] (fst kv))) c) w = over c w + (if has c k then v * w k else 0).
Proof.
  induction c as [|[k' v'] c IH]; intros N; [unfold over; simpl; lra|]. inversion N as [|a b Na Nb]; subst. specialize (IH Nb).
  unfold over in *. cbn [map fst snd rsum]. rewrite IH. cbn [cget fst has existsb]. destruct (eqbits k k') eqn:E.
  - apply eqbits_true in E. subst. rewrite eqbits_refl. cbn [orb]. replace (has c k') with false; [lra|].
    symmetry. destruct (has c k') eqn:Hh; [|reflexivity]. apply has_in in Hh. contradiction.
  - replace (eqbits k' k) with false; [cbn [orb]; unfold has; lra|]. symmetry. apply eqbits_false. apply eqbits_false in E. auto.
Qed.
Lemma cadd_spec c k v : NoDup (map fst c) -> counts_ok c -> 0 <= v ->
  NoDup (map fst (cadd c [(k, v)])) /\ counts_ok (cadd c [(k, v)]) /\ forall w, over (cadd c [(k, v)]) w = over c w + v * w k.
Proof.
  intros N H Hv.
  assert (H1 : counts_ok (map (fun kv => (fst kv, snd kv + cget [(k, v)] (fst kv))) c)).
  { intros k' v' I. apply in_map_iff in I as ([k0 v0] & E & I). injection E as <- <-. cbn [snd fst cget]. pose proof (H _ _ I). destruct (eqbits k k0); lra. }
  assert (M1 : map fst (map (fun kv : list bool * R => (fst kv, snd kv + cget [(k, v)] (fst kv))) c) = map fst c) by (rewrite map_map; reflexivity).
  assert (Sub : forall l, NoDup (map fst l) -> NoDup (map fst (filter (fun kv : list bool * R => pos (snd kv)) l)) /\ forall x, In x (map fst (filter (fun kv : list bool * R => pos (snd kv)) l)) -> In x (map fst l)).
  { intros l. induction l as [|[a b] l IH]; intros Nl; [split; [constructor|intros x []]|]. inversion Nl as [|? ? Nx Ny]; subst. destruct (IH Ny) as [I1 I2]. cbn [filter snd].
    destruct (pos b); [|split; [exact I1|intros x J; right; apply I2; exact J]]. cbn [map fst]. split.
    - constructor; [|exact I1]. intros J. apply Nx. apply I2. exact J.
    - intros x [J|J]; [left; exact J|right; apply I2; exact J]. }
  split; [|split].
  - unfold cadd. rewrite map_app. apply NoDup_app_intro.
    + apply Sub. rewrite M1. exact N.
    + cbn [filter fst snd]. destruct (negb (has c k) && pos v); cbn [map]; repeat constructor. intros [].
    + intros x I J. destruct (Sub _ ltac:(rewrite M1; exact N)) as [_ S]. apply S in I. rewrite M1 in I.
      cbn [filter fst snd] in J. destruct (negb (has c k) && pos v) eqn:E; [|destruct J]. destruct J as [<-|[]]. apply andb_prop in E as [E _]. apply has_in in I. cbn [fst] in E, I. rewrite I in E. discriminate.
  - intros k' v' I. unfold cadd in I. apply in_app_iff in I as [I|I]; apply filter_In in I as [I _]; [exact (H1 _ _ I)|]. destruct I as [I|[]]. injection I as <- <-. exact Hv.
  - intros w. unfold cadd. rewrite over_app, over_filter_pos by exact H1. rewrite over_map_add by exact N. cbn [filter fst snd].
    destruct (has c k); cbn [negb andb]; [unfold over; simpl; lra|]. unfold pos. destruct (Rlt_dec 0 v); unfold over; simpl; [lra|]. replace v with 0 by lra. lra.
Qed.
Lemma fold_cadd_spec l : forall c, NoDup (map fst c) -> counts_ok c -> (forall k v, In (k, v) l -> 0 <= v) ->
  forall w, over (fold_left cadd (map (fun kv => [kv]) l) c) w = over c w + over l w.
Proof.
  induction l as [|[k v] l IH]; intros c N H Hl w; [unfold over; simpl; lra|]. cbn [map fold_left].
  destruct (cadd_spec c k v N H (Hl k v (or_introl eq_refl))) as (N' & H' & E). rewrite IH; [|exact N'|exact H'|intros k' v' I; apply (Hl k' v'); right; exact I].
  rewrite E. unfold over. simpl. lra.
Qed.
Lemma pick_some k support : (forall i, In i support -> (i < length k)%nat) -> exists k', pick k support = Some k' /\ (-1) ^ ones k' = sign support k.
Proof.
  induction support as [|i r IH]; intros H; [exists []; split; reflexivity|]. destruct IH as (k' & E & S); [intros j J; apply H; right; exact J|].
  cbn [pick]. destruct (nth_error k i) as [b|] eqn:Nb; [|apply nth_error_None in Nb; specialize (H i (or_introl eq_refl)); lia]. rewrite E. exists (b :: k'). split; [reflexivity|].
  cbn [sign fold_right]. change (fold_right (fun i s => (if nth i k false then -1 else 1) * s) 1 r) with (sign r k). rewrite <- S. rewrite (nth_error_nth k i false Nb). destruct b; unfold ones; simpl; lra.
Qed.
Definition readable (support : list nat) (c : counter) : Prop := c <> [] /\ counts_ok c /\ forall k v, In (k, v) c -> forall i, In i support -> (i < length k)%nat.
Lemma get_counts1_spec c support : readable support c -> exists d, get_counts1 c support = Some d /\ over d (fun k => (-1) ^ ones k) = over c (sign support) /\ rsum (map snd d) = total c.
Proof.
  intros (Ne & Hc & Hk).
  assert (P : exists l, osequence (map (fun kv => match pick (fst kv) support with Some k => Some [(k, snd kv)] | None => None end) c) = Some (map (fun kv => [kv]) l)
     /\ (forall k v, In (k, v) l -> 0 <= v) /\ over l (fun k => (-1) ^ ones k) = over c (sign support) /\ over l (fun _ => 1) = total c /\ (c <> [] -> l <> [])).
  { clear Ne. induction c as [|[k v] c IH].
    - exists []. split; [reflexivity|]. split; [intros k v []|]. split; [reflexivity|]. split; [reflexivity|auto].
    - destruct IH as (l & E & A & B & D & _); [intros k' v' I; apply (Hc k' v'); right; exact I|intros k' v' I; apply (Hk k' v'); right; exact I|].
      destruct (pick_some k support (Hk k v (or_introl eq_refl))) as (k' & Ek & S). exists ((k', v) :: l). cbn [map fst snd]. rewrite Ek. 
      split; [|split; [|split; [|split]]].
      + cbn. rewrite E. reflexivity.
      + intros k0 v0 [I|I]; [injection I as <- <-; apply (Hc k); left; reflexivity|exact (A k0 v0 I)].
      + unfold over in *. cbn [map fst snd rsum]. rewrite B, S. reflexivity.
      + unfold total, over in *. cbn [map fst snd rsum]. rewrite D. reflexivity.
      + discriminate. }
  destruct P as (l & E & A & B & D & F). unfold get_counts1. rewrite E. destruct l as [|[k v] l]; [exfalso; apply F; [exact Ne|reflexivity]|].
  cbn [map]. eexists. split; [reflexivity|].
  assert (G : forall w, over (fold_left cadd (map (fun kv => [kv]) l) [(k, v)]) w = over ((k, v) :: l) w).
  { intros w. rewrite fold_cadd_spec.
    - unfold over. simpl. lra.
    - simpl. constructor; [intros []|constructor].
    - intros k' v' [I|[]]. injection I as <- <-. apply (A k). left. reflexivity.
    - intros k' v' I. apply (A k'). right. exact I. }
  split; [rewrite G; exact B|]. transitivity (over (fold_left cadd (map (fun kv => [kv]) l) [(k, v)]) (fun _ => 1)).
  - unfold over. apply f_equal. apply map_ext. intros x. ring.
  - rewrite G. exact D.
Qed.

(** The value for each histogram: the signed sum over its outcomes, divided by the total of the first one. *)
Theorem C14_value : forall samples support, samples <> [] -> (forall c, In c samples -> readable support c) ->
  empirical_average samples support = Some (map (fun c => over c (sign support) / total (hd [] samples)) samples).
Proof.
  intros samples support Ne H. unfold empirical_average, get_counts.
  assert (P : exists ds, osequence (map (fun s => get_counts1 s support) samples) = Some ds /\ Forall2 (fun c d => over d (fun k => (-1) ^ ones k) = over c (sign support) /\ rsum (map snd d) = total c) samples ds).
  { clear Ne. induction samples as [|c s IH]; [exists []; split; [reflexivity|constructor]|]. destruct IH as (ds & E & F); [intros x I; apply H; right; exact I|].
    destruct (get_counts1_spec c support (H c (or_introl eq_refl))) as (d & Ed & A). exists (d :: ds). cbn. rewrite Ed, E. split; [reflexivity|constructor; assumption]. }
  destruct P as (ds & E & F). rewrite E. destruct F as [|c d s ds A F]; [contradiction Ne; reflexivity|]. f_equal.
  assert (G : forall T (l : list counter) m, Forall2 (fun c d => over d (fun k => (-1) ^ ones k) = over c (sign support) /\ rsum (map snd d) = total c) l m ->
     map (fun c => rsum (map (fun kv => snd kv * (-1) ^ ones (fst kv)) c) / T) m = map (fun c => over c (sign support) / T) l).
  { intros T l m F'. induction F' as [|x y l m [B _] F' IH]; [reflexivity|]. cbn [map]. rewrite IH. f_equal. rewrite <- B. reflexivity. }
  cbn [hd]. rewrite <- (proj2 A). apply (G _ (c :: s) (d :: ds)). constructor; assumption.
Qed.

(** The same for histograms of lists of shots: the mean of the sign over the shots. *)
Definition counts_of (shots : list (list bool)) (c : counter) : Prop :=
  NoDup (map fst c) /\ (forall k, In k shots <-> In k (map fst c)) /\ (forall k v, In (k, v) c -> v = INR (count_occ (list_eq_dec Bool.bool_dec) shots k)).
Definition mean_sign (support : list nat) (shots : list (list bool)) : R := rsum (map (sign support) shots) / INR (length shots).
Lemma count_sum (f : list bool -> R) shots : forall keys, NoDup keys -> incl shots keys ->
  rsum (map (fun k => INR (count_occ (list_eq_dec Bool.bool_dec) shots k) * f k) keys) = rsum (map f shots).
Proof.
  induction shots as [|s shots IH]; intros keys N I; [apply rsum_zero; intros k _; simpl; lra|].
  cbn [map rsum]. rewrite <- (IH keys N); [|intros k Hk; apply I; right; exact Hk].
  assert (Is : In s keys) by (apply I; left; reflexivity). clear I IH. induction keys as [|k keys IHk]; [destruct Is|]. inversion N as [|a b Na Nb]; subst.
  cbn [map rsum]. destruct (list_eq_dec Bool.bool_dec s k) as [<-|Nk].
  - rewrite count_occ_cons_eq by reflexivity. rewrite S_INR.
    assert (E : rsum (map (fun k => INR (count_occ (list_eq_dec Bool.bool_dec) (s :: shots) k) * f k) keys) = rsum (map (fun k => INR (count_occ (list_eq_dec Bool.bool_dec) shots k) * f k) keys)).
    { apply rsum_ext. intros x Ix. rewrite count_occ_cons_neq; [reflexivity|]. intros ->. contradiction. }
    rewrite E. lra.
  - rewrite count_occ_cons_neq by exact Nk. destruct Is as [E|Is]; [congruence|]. rewrite IHk by assumption. lra.
Qed.
Lemma counts_over shots c w : counts_of shots c -> over c w = rsum (map w shots).
Proof.
  intros (N & K & V). rewrite <- (count_sum w shots (map fst c) N); [|intros k Hk; apply K; exact Hk]. unfold over. rewrite map_map. apply rsum_ext. intros [k v] I. cbn [fst snd]. rewrite (V k v I). reflexivity.
Qed.
Lemma rsum_ones {A} (l : list A) : rsum (map (fun _ => 1) l) = INR (length l).
Proof. induction l as [|x l IH]; [reflexivity|]. cbn [map rsum length]. rewrite IH, S_INR. lra. Qed.
Theorem C14_shots : forall shots samples support N, (0 < N)%nat -> shots <> [] -> Forall2 counts_of shots samples ->
  (forall l, In l shots -> length l = N /\ forall k, In k l -> forall i, In i support -> (i < length k)%nat) ->
  empirical_average samples support = Some (map (mean_sign support) shots).
Proof.
  intros shots samples support N HN Ne F H. rewrite C14_value.
  - f_equal. assert (T : total (hd [] samples) = INR N).
    { destruct F as [|l c shots samples C F]; [congruence|]. cbn [hd]. unfold total. rewrite (counts_over l c _ C). rewrite rsum_ones. rewrite (proj1 (H l (or_introl eq_refl))). reflexivity. }
    rewrite T. clear T Ne. induction F as [|l c shots samples C F IH]; [reflexivity|]. cbn [map]. rewrite IH by (intros l' I; apply H; right; exact I). f_equal.
    rewrite (counts_over l c _ C). unfold mean_sign. rewrite (proj1 (H l (or_introl eq_refl))). reflexivity.
  - destruct F; [congruence|discriminate].
  - intros c Ic. assert (P : exists l, In l shots /\ counts_of l c).
    { clear - F Ic. induction F as [|l c' shots samples C F IH]; [destruct Ic|]. destruct Ic as [<-|Ic]; [exists l; split; [left; reflexivity|exact C]|]. destruct (IH Ic) as (l' & A & B). exists l'. split; [right; exact A|exact B]. }
    destruct P as (l & Il & (Nd & K & V)). destruct (H l Il) as [Hl Hk]. split; [|split].
    + intros ->. destruct l as [|k l]; [simpl in Hl; lia|]. exact (proj1 (K k) (or_introl eq_refl)).
    + intros k v I. rewrite (V k v I). apply pos_INR.
    + intros k v I. apply Hk. apply K. apply in_map_iff. exists (k, v). auto.
Qed.
Lemma sign_pm support k : sign support k = 1 \/ sign support k = -1.
Proof.
  induction support as [|i r IH]; [left; reflexivity|]. cbn [sign fold_right]. change (fold_right (fun i s => (if nth i k false then -1 else 1) * s) 1 r) with (sign r k).
  destruct (nth i k false), IH as [-> | ->]; lra.
Qed.
(** The value lies in [-1, 1] when all totals are equal. *)
Theorem C14_bounds : forall samples support, samples <> [] -> (forall c, In c samples -> readable support c) ->
  0 < total (hd [] samples) -> (forall c, In c samples -> total c = total (hd [] samples)) ->
  forall vs v, empirical_average samples support = Some vs -> In v vs -> -1 <= v <= 1.
Proof.
  intros samples support Ne H Ht He vs v E I. rewrite C14_value in E by assumption. injection E as <-. apply in_map_iff in I as (c & <- & Ic).
  rewrite <- (He c Ic) in *. destruct (H c Ic) as (_ & Hc & _). clear - Ht Hc.
  assert (B : - total c <= over c (sign support) <= total c).
  { clear Ht. unfold total, over. induction c as [|[k x] c IH]; simpl; [lra|]. assert (0 <= x) by (apply (Hc k); left; reflexivity).
    assert (J : counts_ok c) by (intros k' v' I; apply (Hc k'); right; exact I). specialize (IH J). destruct (sign_pm support k) as [-> | ->]; lra. }
  split; [apply (Rmult_le_reg_r (total c)); [exact Ht|]|apply (Rmult_le_reg_r (total c)); [exact Ht|]]; unfold Rdiv; rewrite Rmult_assoc, Rinv_l by lra; lra.
Qed.
(** With different totals the value can leave [-1, 1]: the first histogram's total normalises all of them. *)
Theorem C14_unequal_refuted : exists samples, (forall c, In c samples -> readable [0%nat] c /\ 0 < total c) /\ exists vs v, empirical_average samples [0%nat] = Some vs /\ In v vs /\ v > 1.
Proof.
  exists [[([false], 1)]; [([false], 3)]]. assert (R : forall c, In c [[([false], 1)]; [([false], 3)]] -> readable [0%nat] c /\ 0 < total c).
  { intros c [<-|[<-|[]]]; (split; [split; [discriminate|split; [intros k v [I|[]]; injection I as <- <-; lra|intros k v [I|[]]; injection I as <- <-; intros i [<-|[]]; simpl; lia]]|unfold total, over; simpl; lra]). }
  split; [exact R|]. eexists. exists 3. split; [apply C14_value; [discriminate|intros c I; apply R, I]|]. split; [|lra]. right. left. unfold total, over. simpl. field.
Qed.
Example C14_ex : let shots := [[[false; true]; [true; true]; [false; true]; [true; false]]] in
  counts_of (hd [] shots) [([false; true], 2); ([true; true], 1); ([true; false], 1)] /\
  empirical_average [[([false; true], 2); ([true; true], 1); ([true; false], 1)]] [0; 1]%nat = Some [-1 / 2].
Proof.
  intros shots. assert (C : counts_of (hd [] shots) [([false; true], 2); ([true; true], 1); ([true; false], 1)]).
  { split; [|split].
    - simpl. repeat constructor; simpl; intuition congruence.
    - intros k. simpl. intuition.
    - intros k v. simpl. intros [I|[I|[I|[]]]]; injection I as <- <-; simpl; lra. }
  split; [exact C|]. rewrite (C14_shots shots _ _ 4%nat); [|lia|discriminate|constructor; [exact C|constructor]|].
  - cbn. unfold mean_sign, sign. cbn. f_equal. f_equal. field.
  - intros l [<-|[]]. split; [reflexivity|]. intros k. simpl. intuition subst; simpl; lia.
Qed.

(** * Observables that are sums of Z-strings *)
(** Specification: products of Z operators on the listed qubits. *)
Inductive zstring : block -> list nat -> Prop :=
| ZSone q : zstring (BPrim PZ q) [q]
| ZSkron qs : zstring (BKron (map (BPrim PZ) qs)) qs
| ZSchain qs : zstring (BChain (map (BPrim PZ) qs)) qs.
Lemma first_qubits si p qs : osequence (map (first_qubit si) (map (BPrim p) qs)) = Some qs.
Proof. induction qs as [|q qs IH]; [reflexivity|]. cbn. rewrite IH. reflexivity. Qed.
Lemma filter_none (l : list block) : filter (is_op None) l = l.
Proof. induction l as [|b l IH]; [reflexivity|]. cbn. f_equal. exact IH. Qed.
Lemma zstring_support si t qs : zstring t qs -> get_qubit_indices_for_op si t None = Some qs.
Proof. intros H. unfold get_qubit_indices_for_op. rewrite filter_none. destruct H; cbn [blocks_or_self]; [reflexivity|apply first_qubits|apply first_qubits]. Qed.
Lemma zstring_den rho t qs : zstring t qs -> den rho t = seqs (map (fun q => gate1 q (prim_mat PZ)) qs).
Proof.
  intros H. assert (D : forall qs, dchain rho (map (BPrim PZ) qs) = seqs (map (fun q => gate1 q (prim_mat PZ)) qs)) by (intros l; rewrite dchain_seqs, map_map; reflexivity).
  destruct H; [reflexivity|apply D|apply D].
Qed.
(** The estimate is the weighted sum of the mean signs. *)
Theorem C14_pauli_z : forall si rho terms qss samples, terms <> [] -> samples <> [] ->
  Forall2 (fun tc qs => zstring (fst tc) qs) terms qss ->
  (forall c qs, In c samples -> In qs qss -> readable qs c) ->
  pauli_z_expectation si rho terms samples =
    Some (map (fun c => rsum (map (fun p => ang rho (snd (fst p)) * (over c (sign (snd p)) / total (hd [] samples))) (combine terms qss))) samples).
Proof.
  intros si rho terms qss samples Nt Ns F Rd. unfold pauli_z_expectation.
  assert (E : osequence (map (fun tc => match get_qubit_indices_for_op si (fst tc) None with
        | Some s => option_map (map (fun v => v * ang rho (snd tc))) (empirical_average samples s) | None => None end) terms)
     = Some (map (fun p => map (fun c => ang rho (snd (fst p)) * (over c (sign (snd p)) / total (hd [] samples))) samples) (combine terms qss))).
  { clear Nt. induction F as [|tc qs terms qss Z F IH]; [reflexivity|]. cbn [map combine osequence]. rewrite (zstring_support si _ _ Z).
    rewrite C14_value; [|exact Ns|intros c Ic; apply Rd; [exact Ic|left; reflexivity]]. rewrite IH by (intros c qs' Ic Iq; apply Rd; [exact Ic|right; exact Iq]).
    cbn [option_map]. cbn. f_equal. f_equal. rewrite map_map. apply map_ext. intros c. cbn [fst snd]. ring. }
  rewrite E. destruct F as [|tc qs terms qss Z F]; [congruence|]. cbn [combine map]. f_equal.
  assert (G : forall (l : list ((block * expr) * list nat)) (g : counter -> R) (f : (block * expr) * list nat -> counter -> R),
      fold_left zip_add (map (fun p => map (f p) samples) l) (map g samples) = map (fun c => g c + rsum (map (fun p => f p c) l)) samples).
  { induction l as [|p l IH]; intros g f; cbn [map fold_left rsum]; [apply map_ext; intros c; lra|].
    assert (Zp : zip_add (map g samples) (map (f p) samples) = map (fun c => g c + f p c) samples).
    { unfold zip_add. clear. induction samples as [|c s IH]; [reflexivity|]. cbn. rewrite IH. reflexivity. }
    rewrite Zp, IH. apply map_ext. intros c. lra. }
  rewrite (G (combine terms qss) _ (fun p c => ang rho (snd (fst p)) * (over c (sign (snd p)) / total (hd [] samples)))). apply map_ext. intros c. cbn [rsum fst snd]. lra.
Qed.

(** * Exact frequencies *)
(** The histogram of [N] shots with the Born probabilities. *)
Definition born (N : R) (n : nat) (psi : St) : counter := map (fun b => (b, N * prob n psi b)) (bits n).
Lemma born_over N n psi w : over (born N n psi) w = N * rsum (map (fun b => prob n psi b * w b) (bits n)).
Proof. unfold over, born. rewrite map_map. rewrite <- rsum_scal. apply rsum_ext. intros b _. cbn [fst snd]. ring. Qed.
Lemma rsum_csum {A} (f : A -> R) l : RtoC (rsum (map f l)) = csum (fun a => RtoC (f a)) l.
Proof. induction l as [|a l IH]; [reflexivity|]. cbn [map rsum csum]. rewrite RtoC_plus, IH. reflexivity. Qed.
Lemma born_total N n psi : normalised n psi -> total (born N n psi) = N.
Proof.
  intros H. unfold total. rewrite born_over. apply RtoC_inj. rewrite RtoC_mult. rewrite (rsum_csum (fun b => prob n psi b * 1)).
  transitivity (RtoC N * inner n psi psi)%C; [|rewrite H; ring]. f_equal. unfold inner. apply csum_ext. intros b _. rewrite Rmult_1_r, prob_inner. reflexivity.
Qed.
Lemma sign_zsign n qs b : length b = n -> (forall q, In q qs -> (q < n)%nat) -> zsign (upds zeros (seq 0 n) b) qs = sign qs b.
Proof.
  intros Hb. induction qs as [|q qs IH]; intros H; [reflexivity|]. unfold zsign, sign in *. cbn [fold_right]. rewrite IH by (intros k Hk; apply H; right; exact Hk).
  rewrite amps_bit by (exact Hb || (apply H; left; reflexivity)). reflexivity.
Qed.
Lemma born_readable N n psi qs : 0 < N -> (forall q, In q qs -> (q < n)%nat) -> readable qs (born N n psi).
Proof.
  intros HN H. split; [|split].
  - unfold born. pose proof (proj2 (in_bits_iff n (repeat false n)) (repeat_length false n)) as I. intros E. destruct (bits n); [destruct I|discriminate].
  - intros k v I. apply in_map_iff in I as (b & E & _). injection E as <- <-. apply Rmult_le_pos; [lra|apply prob_nonneg].
  - intros k v I i Hi. apply in_map_iff in I as (b & E & Ib). injection E as <- <-. apply bits_length in Ib. rewrite Ib. apply H. exact Hi.
Qed.
Lemma born_expval N n psi qs : 0 < N -> normalised n psi -> (forall q, In q qs -> (q < n)%nat) ->
  RtoC (over (born N n psi) (sign qs) / total (born N n psi)) = expval n psi (seqs (map (fun q => gate1 q (prim_mat PZ)) qs)).
Proof.
  intros HN Hp H. rewrite born_total by exact Hp. rewrite born_over. replace (N * rsum (map (fun b => prob n psi b * sign qs b) (bits n)) / N) with (rsum (map (fun b => prob n psi b * sign qs b) (bits n))) by (field; lra).
  rewrite (rsum_csum (fun b => prob n psi b * sign qs b)). unfold expval, inner. apply csum_ext. intros b Hb. apply bits_length in Hb. unfold amps at 2. rewrite zprod_diag. rewrite RtoC_mult, prob_inner. rewrite (sign_zsign n qs b Hb H). unfold amps. ring.
Qed.
(** Exact frequencies give exact expectation values. *)
Theorem C14_exact : forall si rho terms qss n psi N, terms <> [] -> 0 < N -> normalised n psi ->
  Forall2 (fun tc qs => zstring (fst tc) qs /\ (forall q, In q qs -> (q < n)%nat) /\ ev rho (snd tc) = RtoC (ang rho (snd tc))) terms qss ->
  exists v, pauli_z_expectation si rho terms [born N n psi] = Some [v] /\ RtoC v = expval n psi (weighted rho terms).
Proof.
  intros si rho terms qss n psi N Nt HN Hp F. rewrite (C14_pauli_z si rho terms qss); [|exact Nt|discriminate| |].
  - eexists. split; [reflexivity|]. cbn [hd]. clear Nt. induction F as [|[t c] qs terms qss (Z & Q & V) F IH]; [cbn; rewrite expval_zero; reflexivity|].
    cbn [combine map rsum fst snd weighted fold_right] in *. rewrite RtoC_plus, IH. rewrite expval_add, expval_scale. rewrite V. rewrite RtoC_mult. rewrite (born_expval N n psi qs HN Hp Q). rewrite (zstring_den rho t qs Z). reflexivity.
  - clear Nt. induction F as [|tc qs terms qss (Z & _) F IH]; constructor; assumption.
  - intros c qs [<-|[]] Iq. apply born_readable; [exact HN|]. clear Nt. induction F as [|tc qs' terms qss (_ & Q & _) F IH]; [destruct Iq|]. destruct Iq as [<-|Iq]; [exact Q|exact (IH Iq)].
Qed.
Definition plus0 : St := fun x => if x 1%nat then RtoC 0 else (/ RtoC (sqrt 2))%C.
Example C14_exact_ex : normalised 2 plus0 /\
  exists v, pauli_z_expectation (fun l => l) (fun _ => 0) [(BPrim PZ 1%nat, ECst (RtoC 3)); (BKron (map (BPrim PZ) [0; 1]%nat), ECst (RtoC 2))] [born 100 2 plus0] = Some [v].
Proof.
  assert (Hn : normalised 2 plus0).
  { unfold normalised, inner, amps, plus0. cbn. replace (/ RtoC (sqrt 2))%C with (RtoC (/ sqrt 2)) by (apply RtoC_inv; apply Rgt_not_eq, sqrt_lt_R0; lra). rewrite !Cconj_RtoC.
    assert (S : (/ sqrt 2 * / sqrt 2 = / 2)%R) by (rewrite <- Rinv_mult, sqrt_sqrt by lra; reflexivity). apply Ceq; simpl; [|ring]. lra. }
  split; [exact Hn|]. destruct (C14_exact (fun l => l) (fun _ => 0) [(BPrim PZ 1%nat, ECst (RtoC 3)); (BKron (map (BPrim PZ) [0; 1]%nat), ECst (RtoC 2))] [[1]; [0; 1]]%nat 2 plus0 100) as (v & E & _);
    [discriminate|lra|exact Hn| |exists v; exact E].
  constructor; [|constructor; [|constructor]]; (split; [constructor|split; [simpl; intuition lia|reflexivity]]).
Qed.
Print Assumptions C14_value.
Print Assumptions C14_shots.
Print Assumptions C14_bounds.
Print Assumptions C14_unequal_refuted.
Print Assumptions C14_pauli_z.
Print Assumptions C14_exact.
