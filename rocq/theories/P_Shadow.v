(** C16: classical shadows. *)
From Coq Require Import String Reals ZArith List Arith Bool Lia Lra FunctionalExtensionality Permutation Sorted.
From Coquelicot Require Import Coquelicot.
From Coq Require Import List.
From Verif Require Import S_Sets S_Ops L_Ops M_QubitSupport M_Block S_Den L_Den L_Loc L_Adj L_Gates M_BlockOps L_Support M_Transpile L_Transpile M_PSR S_PSR P_PSR P_Dagger S_State L_Inner M_Pauli P_Pauli M_Measure P_Measure P_Tomography P_Hea P_Overlap P_Daqc L_Exp M_Shadow.
Import ListNotations.
Open Scope nat_scope.
Open Scope R_scope.

(** * Specification *)
(** The expectation value of a function of the outcomes of independent shots; [ps] are the outcome distributions of the shots. *)
Fixpoint expect (n : nat) (ps : list (list bool -> R)) (f : list (list bool) -> R) : R :=
  match ps with
  | [] => f []
  | p :: r => rsum (map (fun b => p b * expect n r (fun bs => f (b :: bs))) (bits n))
  end.
(** Averages over uniformly random rows of [n] measurement bases, and over [m] such rows. *)
Fixpoint average_row (n : nat) (f : list nat -> R) : R :=
  match n with
  | O => f []
  | S n' => (average_row n' (fun r => f (0%nat :: r)) + average_row n' (fun r => f (1%nat :: r)) + average_row n' (fun r => f (2%nat :: r))) / 3
  end.
Fixpoint average_rows (n m : nat) (f : list (list nat) -> R) : R :=
  match m with
  | O => f []
  | S m' => average_row n (fun row => average_rows n m' (fun ids => f (row :: ids)))
  end.
(** Strings of X, Y, Z and I on distinct qubits of the register. *)
Definition xyzi (n : nat) (ops : list (prim * nat)) : Prop :=
  NoDup (map snd ops) /\ forall p q, In (p, q) ops -> (p = PX \/ p = PY \/ p = PZ \/ p = PI_) /\ (q < n)%nat.
Definition product (ops : list (prim * nat)) : block := BKron (map (fun pq => BPrim (fst pq) (snd pq)) ops).
Definition basis (p : prim) : nat := match p with PX => 0 | PY => 1 | _ => 2 end.
(** A row of bases measures the string: every X, Y, Z of it is measured in its basis. *)
Definition fits (ops : list (prim * nat)) (row : list nat) : bool :=
  forallb (fun pq => match fst pq with PI_ => true | p => Nat.eqb (basis p) (nth (snd pq) row 3%nat) end) ops.
Definition rows_ok (n : nat) (ids : list (list nat)) : Prop := forall row, In row ids -> List.length row = n /\ forall i, In i row -> (i < 3)%nat.
Definition weight (ops : list (prim * nat)) : nat := List.length (filter (fun pq => match fst pq with PI_ => false | _ => true end) ops).
(** The rows of group [k] when [N] rows are split into [K] groups of equal size. *)
Definition group {A} (N K k : nat) (l : list A) : list A := firstn (N / K) (skipn (k * (N / K)) l).
(** Entry [k] of the estimators, as a function of the outcomes. *)
Definition estimator_of set_iter N K ids o (k : nat) (samples : list (list bool)) : R :=
  match estimators set_iter N K ids samples o with Some l => nth k l 0 | None => 0 end.
(** Factors in the order of [qubit_support]. *)
Definition in_support_order (set_iter : list nat -> list nat) (ops : list (prim * nat)) : Prop :=
  locals (bsup set_iter (product ops)) = map snd ops.

(** * The rotations *)
Definition letter_of (id : nat) : prim := match id with 0%nat => PX | 1%nat => PY | _ => PZ end.
Definition row_ops_from (s : nat) (row : list nat) : list (prim * nat) := map (fun ii => (letter_of (snd ii), fst ii)) (combine (seq s (List.length row)) row).
Lemma row_ops_cons s a row : row_ops_from s (a :: row) = (letter_of a, s) :: row_ops_from (S s) row.
Proof. reflexivity. Qed.
Lemma row_ops_qubits s row : map snd (row_ops_from s row) = seq s (List.length row).
Proof. revert s. induction row as [|a row IH]; intros s; [reflexivity|]. rewrite row_ops_cons. cbn [map snd List.length seq]. rewrite IH. reflexivity. Qed.
Lemma row_ops_in s row q : (s <= q < s + List.length row)%nat -> In (letter_of (nth (q - s) row 3%nat), q) (row_ops_from s row).
Proof.
  revert s. induction row as [|a row IH]; intros s H; cbn [List.length] in H; [lia|]. rewrite row_ops_cons. destruct (Nat.eq_dec q s) as [->|D].
  - left. rewrite Nat.sub_diag. reflexivity.
  - right. replace (q - s)%nat with (S (q - S s)) by lia. cbn [nth]. apply IH. lia.
Qed.
Lemma row_ops_letter s row p q : In (p, q) (row_ops_from s row) -> letter p.
Proof. unfold row_ops_from. intros I. apply in_map_iff in I as ([a b] & E & _). cbn [fst snd] in E. injection E as <- <-. unfold letter, letter_of. destruct b as [|[|b]]; auto. Qed.
Lemma rotations_row s row : (forall i, In i row -> (i < 3)%nat) -> exists ops, osequence (map (fun ii => pauli_rotation (snd ii) (fst ii)) (combine (seq s (List.length row)) row)) = Some ops /\
  (forall b q, In b (drop_none ops) -> In q (qubits b) -> (s <= q)%nat) /\ ForallOrdPairs disjoint_blocks (drop_none ops) /\
  forall rho, dchain rho (drop_none ops) = seqs (map basis_change (row_ops_from s row)).
Proof.
  revert s. induction row as [|a row IH]; intros s H.
  - exists []. split; [reflexivity|]. split; [intros b q []|]. split; [constructor|]. intros rho. reflexivity.
  - destruct (IH (S s) (fun i I => H i (or_intror I))) as (ops & E & Q & D & R). cbn [List.length seq combine map fst snd].
    assert (Ha : (a < 3)%nat) by (apply H; left; reflexivity). rewrite row_ops_cons. 
    destruct a as [|[|[|a]]]; [| | |lia].
    + exists (Some (BPrim PH s) :: ops). split; [cbn [pauli_rotation osequence]; rewrite E; reflexivity|]. cbn [drop_none flat_map app]. fold (drop_none ops). split; [|split].
      * intros b q [<-|I] J; [destruct J as [<-|[]]; lia|]. specialize (Q b q I J). lia.
      * constructor; [|exact D]. apply Forall_forall. intros b I q [<-|[]] J. specialize (Q b s I J). lia.
      * intros rho. cbn [map seqs]. rewrite <- (R rho). reflexivity.
    + exists (Some (BChain [BPrim PSdg s; BPrim PH s]) :: ops). split; [cbn [pauli_rotation osequence]; rewrite E; reflexivity|]. cbn [drop_none flat_map app]. fold (drop_none ops). split; [|split].
      * intros b q [<-|I] J; [destruct J as [<-|[<-|[]]]; lia|]. specialize (Q b q I J). lia.
      * constructor; [|exact D]. apply Forall_forall. intros b I q [<-|[<-|[]]] J; specialize (Q b s I J); lia.
      * intros rho. cbn [map seqs]. rewrite <- (R rho). reflexivity.
    + exists (None :: ops). split; [cbn [pauli_rotation osequence]; rewrite E; reflexivity|]. cbn [drop_none flat_map app]. fold (drop_none ops). split; [|split].
      * intros b q I J. specialize (Q b q I J). lia.
      * exact D.
      * intros rho. cbn [map seqs]. rewrite <- (R rho), seqop_id_l. reflexivity.
Qed.
Definition row_block (o : option block) : block := match o with Some b => b | None => BChain [] end.
Lemma row_circuit si row : set_order si -> (forall i, In i row -> (i < 3)%nat) -> exists o, row_rotations si row = Some o /\ forall rho, den rho (row_block o) = seqs (map basis_change (row_ops_from 0 row)).
Proof.
  intros O H. destruct (rotations_row 0 row H) as (ops & E & _ & D & R). unfold row_rotations. rewrite E. destruct (drop_none ops) as [|b l] eqn:L.
  - exists None. split; [reflexivity|]. intros rho. rewrite <- (R rho). reflexivity.
  - rewrite kron_ok; [|exact O|discriminate|exact D]. exists (Some (BKron (b :: l))). split; [reflexivity|]. intros rho. rewrite <- (R rho). reflexivity.
Qed.
(** After the rotations, Z on a qubit is the letter of the row. *)
Lemma row_intertwines all : NoDup (map snd all) -> (forall p q, In (p, q) all -> letter p) -> forall p q, In (p, q) all ->
  seqop (seqs (map basis_change all)) (gate1 q (prim_mat PZ)) = seqop (gate1 q (prim_mat p)) (seqs (map basis_change all)).
Proof.
  induction all as [|[p0 q0] all IH]; intros N L p q I; [destruct I|]. cbn [map snd] in N. inversion N as [|x y N1 N2]; subst. cbn [map seqs]. destruct I as [I|I].
  - injection I as -> ->. assert (C1 : seqop (seqs (map basis_change all)) (gate1 q (prim_mat PZ)) = seqop (gate1 q (prim_mat PZ)) (seqs (map basis_change all))).
    { eapply loc_comm; [apply bcs_loc|constructor; intros k [<-|[]]; exact (eq_refl q)|]. intros k J ->. contradiction. }
    rewrite seqop_assoc, C1, <- seqop_assoc, (bc_intertwines p q (L p q (or_introl eq_refl))), seqop_assoc. reflexivity.
  - assert (D : q <> q0). { intros ->. apply N1. apply (in_map snd) in I. exact I. }
    rewrite seqop_assoc, (IH N2 (fun p q J => L p q (or_intror J)) p q I), <- !seqop_assoc. f_equal.
    eapply (loc_comm (fun k => k = q0) (fun k => k = q)); [exact (bc_loc (p0, q0))|constructor; intros k [<-|[]]; reflexivity|]. intros k -> E. congruence.
Qed.
Lemma string_rotated all ops : NoDup (map snd all) -> (forall p q, In (p, q) all -> letter p) -> (forall pq, In pq ops -> In pq all) ->
  seqop (seqs (map basis_change all)) (seqs (map (fun q => gate1 q (prim_mat PZ)) (map snd ops))) = seqop (seqs (map (fun pq => gate1 (snd pq) (prim_mat (fst pq))) ops)) (seqs (map basis_change all)).
Proof.
  intros N L. induction ops as [|[p q] ops IH]; intros H; [cbn [map seqs]; rewrite seqop_id_l, seqop_id_r; reflexivity|]. cbn [map seqs fst snd].
  rewrite <- seqop_assoc, (row_intertwines all N L p q (H _ (or_introl eq_refl))), !seqop_assoc. f_equal. apply IH. intros pq I. apply H. right. exact I.
Qed.
Definition letters (ops : list (prim * nat)) : list (prim * nat) := filter (fun pq => match fst pq with PI_ => false | _ => true end) ops.
Lemma letters_den ops : seqs (map (fun pq => gate1 (snd pq) (prim_mat (fst pq))) ops) = seqs (map (fun pq => gate1 (snd pq) (prim_mat (fst pq))) (letters ops)).
Proof.
  induction ops as [|[p q] ops IH]; [reflexivity|]. unfold letters in *. cbn [filter fst]. assert (C : p = PI_ \/ (match p with PI_ => false | _ => true end) = true) by (destruct p; auto).
  destruct C as [-> | E]; [|rewrite E]; cbn [map seqs fst snd]; rewrite IH; [|reflexivity]. rewrite (gate1_id q (prim_mat PI_)); [apply seqop_id_l|]. intros a b. destruct a, b; reflexivity.
Qed.
Lemma product_den rho ops : den rho (product ops) = seqs (map (fun pq => gate1 (snd pq) (prim_mat (fst pq))) (letters ops)).
Proof. unfold product. change (den rho (BKron ?l)) with (dchain rho l). rewrite dchain_seqs, map_map, <- letters_den. reflexivity. Qed.
Lemma letters_in n ops p q : xyzi n ops -> In (p, q) (letters ops) -> letter p /\ (q < n)%nat.
Proof.
  intros [_ X] I. unfold letters in I. apply filter_In in I as [I E]. destruct (X p q I) as [[-> | [-> | [-> | ->]]] B]; try discriminate; (split; [unfold letter; auto|exact B]).
Qed.
Lemma fits_in n ops row p q : xyzi n ops -> fits ops row = true -> In (p, q) (letters ops) -> letter_of (nth q row 3%nat) = p /\ nth q row 3%nat = basis p.
Proof.
  intros X F I. destruct (letters_in n ops p q X I) as [Lp _]. unfold letters in I. apply filter_In in I as [I _]. unfold fits in F. rewrite forallb_forall in F. specialize (F _ I). cbn [fst snd] in F.
  assert (E : basis p = nth q row 3%nat) by (destruct Lp as [-> | [-> | ->]]; apply Nat.eqb_eq; exact F). rewrite <- E. destruct Lp as [-> | [-> | ->]]; auto.
Qed.
(** One shot of a fitting row: the mean of the product of the spins is the expectation value. *)
Lemma shot_mean n rho psi ops row b : normalised n psi -> xyzi n ops -> List.length row = n -> (forall i, In i row -> (i < 3)%nat) -> fits ops row = true ->
  den rho b = seqs (map basis_change (row_ops_from 0 row)) ->
  rsum (map (prob n (den rho b psi)) (bits n)) = 1 /\
  RtoC (rsum (map (fun s => prob n (den rho b psi) s * sign (map snd (letters ops)) s) (bits n))) = expval n psi (den rho (product ops)).
Proof.
  intros Hn X L H F E. set (U := seqs (map basis_change (row_ops_from 0 row))) in *.
  assert (HU : unitary_on n U).
  { apply unitary_seqs. apply Forall_forall. intros A I. apply in_map_iff in I as ([p q] & <- & I). apply bc_unitary; [exact (row_ops_letter _ _ _ _ I)|]. apply (in_map snd) in I. rewrite row_ops_qubits in I. apply in_seq in I. cbn [snd] in *. lia. }
  assert (Hn' : normalised n (U psi)) by (unfold normalised; rewrite unitary_inner by exact HU; exact Hn).
  rewrite E. assert (T1 : rsum (map (prob n (U psi)) (bits n)) = 1).
  { pose proof (born_total 1 n (U psi) Hn') as T. unfold total in T. rewrite born_over in T. rewrite Rmult_1_l in T. rewrite <- T. f_equal. apply map_ext. intros s. ring. }
  split; [exact T1|].
  assert (Hq : forall q, In q (map snd (letters ops)) -> (q < n)%nat) by (intros q I; apply in_map_iff in I as ([p q'] & <- & I); apply (letters_in n ops p q' X I)).
  pose proof (born_expval 1 n (U psi) (map snd (letters ops)) Rlt_0_1 Hn' Hq) as B. rewrite born_total, born_over, Rmult_1_l in B by exact Hn'. unfold Rdiv in B. rewrite Rinv_1, Rmult_1_r in B. rewrite B.
  unfold expval. change (seqs (map (fun q => gate1 q (prim_mat PZ)) (map snd (letters ops))) (U psi)) with (seqop U (seqs (map (fun q => gate1 q (prim_mat PZ)) (map snd (letters ops)))) psi).
  unfold U. rewrite string_rotated.
  - fold U. rewrite product_den. unfold seqop. apply unitary_inner. exact HU.
  - rewrite row_ops_qubits. apply seq_NoDup.
  - intros p q I. exact (row_ops_letter _ _ _ _ I).
  - intros [p q] I. destruct (fits_in n ops row p q X F I) as [Ep _]. destruct (letters_in n ops p q X I) as [_ B']. pose proof (row_ops_in 0 row q ltac:(lia)) as J. rewrite Nat.sub_0_r, Ep in J. exact J.
Qed.

(** * Reading the observable *)
Definition string_observable (si : list nat -> list nat) (o : block) (ops : list (prim * nat)) : Prop :=
  (o = product ops /\ in_support_order si ops) \/ (exists p q, o = BPrim p q /\ ops = [(p, q)] /\ p <> PI_).
Lemma read_product si n ops : xyzi n ops -> in_support_order si ops -> read_observable si (product ops) = Some (Letters (map (fun pq => basis (fst pq)) (letters ops)) (map snd (letters ops))).
Proof.
  intros X S. assert (R : read_observable si (product ops) = match osequence (map pauli_index (filter (fun b => negb (is_I b)) (map (fun pq => BPrim (fst pq) (snd pq)) ops))), osequence (map (first_qubit si) (filter is_I (map (fun pq => BPrim (fst pq) (snd pq)) ops))) with
     | Some idx, Some is => Some (Letters idx (filter (fun q => negb (existsb (Nat.eqb q) is)) (locals (bsup si (product ops))))) | _, _ => None end) by reflexivity.
  rewrite R, S. clear R S. set (ids := filter (fun pq : prim * nat => match fst pq with PI_ => true | _ => false end) ops).
  assert (E1 : osequence (map pauli_index (filter (fun b => negb (is_I b)) (map (fun pq => BPrim (fst pq) (snd pq)) ops))) = Some (map (fun pq => basis (fst pq)) (letters ops))).
  { destruct X as [_ X]. unfold letters. clear ids. induction ops as [|[p q] ops IH]; [reflexivity|]. specialize (IH (fun p q I => X p q (or_intror I))). destruct (X p q (or_introl eq_refl)) as [C _]. cbn [map filter fst snd].
    destruct C as [-> | [-> | [-> | ->]]]; cbn [is_I negb]; try exact IH; cbn [map osequence pauli_index]; rewrite IH; reflexivity. }
  assert (E2 : osequence (map (first_qubit si) (filter is_I (map (fun pq => BPrim (fst pq) (snd pq)) ops))) = Some (map snd ids)).
  { unfold ids. clear. induction ops as [|[p q] ops IH]; [reflexivity|]. cbn [map filter fst snd]. destruct p; cbn [is_I]; try exact IH. cbn [map osequence]. rewrite IH. reflexivity. }
  rewrite E1, E2. f_equal. f_equal.
  assert (E3 : forall l, (forall pq, In pq l -> In pq ops) -> filter (fun q => negb (existsb (Nat.eqb q) (map snd ids))) (map snd l) = map snd (letters l)).
  { induction l as [|[p q] l IH]; intros H; [reflexivity|]. unfold letters. cbn [map filter fst snd]. rewrite IH by (intros pq I; apply H; right; exact I). fold (letters l).
    assert (J := H _ (or_introl eq_refl)). assert (Q : existsb (Nat.eqb q) (map snd ids) = match p with PI_ => true | _ => false end).
    { apply Bool.eq_true_iff_eq. rewrite existsb_exists. split.
      - intros (q' & I' & E). apply Nat.eqb_eq in E. subst q'. apply in_map_iff in I' as ([p' q'] & Eq & I'). cbn [snd] in Eq. subst q'. unfold ids in I'. apply filter_In in I' as [I' E'].
        assert (p' = p). { destruct X as [N _]. clear - N I' J. induction ops as [|[a c] l IH]; [destruct J|]. cbn [map snd] in N. inversion N as [|x y N1 N2]; subst. destruct I' as [I'|I'], J as [J|J].
          - congruence. - injection I' as -> ->. exfalso. apply N1. apply (in_map snd) in J. exact J. - injection J as -> ->. exfalso. apply N1. apply (in_map snd) in I'. exact I'. - exact (IH N2 J I'). }
        subst p'. exact E'.
      - intros E. exists q. split; [|apply Nat.eqb_refl]. apply in_map_iff. exists (p, q). split; [reflexivity|]. unfold ids. apply filter_In. split; [exact J|exact E]. }
    rewrite Q. destruct p; reflexivity. }
  apply E3. auto.
Qed.
Lemma reads si n o ops : xyzi n ops -> string_observable si o ops -> read_observable si o = Some (Letters (map (fun pq => basis (fst pq)) (letters ops)) (map snd (letters ops))).
Proof.
  intros X [[-> S]|(p & q & -> & -> & N)]; [apply (read_product si n); assumption|]. destruct X as [_ X]. destruct (X p q (or_introl eq_refl)) as [[-> | [-> | [-> | ->]]] _]; [reflexivity|reflexivity|reflexivity|congruence].
Qed.
Lemma string_observable_den si rho o ops : string_observable si o ops -> den rho o = den rho (product ops).
Proof. intros [[-> _]|(p & q & -> & -> & _)]; [reflexivity|]. change (gate1 q (prim_mat p) = seqop (gate1 q (prim_mat p)) idop). rewrite seqop_id_r. reflexivity. Qed.

(** * One group *)
Lemma nth_error_some {A} (l : list A) q d : (q < List.length l)%nat -> nth_error l q = Some (nth q l d).
Proof. intros H. apply nth_error_nth'. exact H. Qed.
Lemma combine_map2 {A B D} (a : A -> B) (b : A -> D) l : combine (map a l) (map b l) = map (fun x => (a x, b x)) l.
Proof. induction l as [|x l IH]; [reflexivity|]. simpl. rewrite IH. reflexivity. Qed.
Lemma matches_fits n ops row : xyzi n ops -> List.length row = n -> matches (map (fun pq => basis (fst pq)) (letters ops)) (map snd (letters ops)) row = Some (fits ops row).
Proof.
  intros X L. unfold matches, columns. rewrite map_map. rewrite (osequence_some_map _ (fun pq => nth (snd pq) row 3%nat)).
  2: { intros [p q] I. destruct (letters_in n ops p q X I). cbn [snd]. apply nth_error_some. lia. }
  unfold all_equal. rewrite !map_length, Nat.eqb_refl, combine_map2. f_equal. unfold fits, letters. clear - ops. induction ops as [|[p q] ops IH]; [reflexivity|]. cbn [filter fst snd forallb].
  assert (C : p = PI_ \/ (match p with PI_ => false | _ => true end) = true) by (destruct p; auto). destruct C as [-> | E]; [exact IH|]. rewrite E. cbn [map forallb fst snd]. rewrite IH. f_equal. rewrite Nat.eqb_sym. destruct p; try reflexivity. discriminate.
Qed.
Definition value (ops : list (prim * nat)) (ids : list (list nat)) (samples : list (list bool)) : R :=
  if existsb (fits ops) ids
  then rsum (map (fun rs => if fits ops (fst rs) then sign (map snd (letters ops)) (snd rs) else 0) (combine ids samples)) / INR (List.length (filter (fits ops) ids))
  else 0.
Definition strings_ok (n : nat) (samples : list (list bool)) : Prop := forall s, In s samples -> List.length s = n.
Lemma trace_value n ops ids samples : xyzi n ops -> rows_ok n ids -> strings_ok n samples -> List.length ids = List.length samples ->
  group_trace (map (fun pq => basis (fst pq)) (letters ops)) (map snd (letters ops)) ids samples = Some (value ops ids samples).
Proof.
  intros X R S L. unfold group_trace. rewrite (osequence_some_map _ (fits ops)) by (intros row I; apply (matches_fits n); [exact X|apply (R row I)]).
  set (sup := map snd (letters ops)).
  assert (SEL : map snd (filter fst (combine (map (fits ops) ids) samples)) = map snd (filter (fun rs => fits ops (fst rs)) (combine ids samples))).
  { clear. revert samples. induction ids as [|r ids IH]; intros [|s samples]; try reflexivity. cbn [map combine filter fst]. destruct (fits ops r); cbn [map]; rewrite IH; reflexivity. }
  rewrite SEL. set (sel := filter (fun rs => fits ops (fst rs)) (combine ids samples)).
  assert (EX : existsb (fits ops) ids = negb (match sel with [] => true | _ => false end)).
  { unfold sel. clear - L. revert samples L. induction ids as [|r ids IH]; intros [|s samples] L; try discriminate; [reflexivity|]. cbn [existsb combine filter fst]. injection L as L. destruct (fits ops r); [reflexivity|]. exact (IH samples L). }
  assert (CNT : List.length (filter (fun m : bool => m) (map (fits ops) ids)) = List.length (filter (fits ops) ids)).
  { clear. induction ids as [|r ids IH]; [reflexivity|]. cbn [map filter]. destruct (fits ops r); cbn [List.length]; rewrite IH; reflexivity. }
  assert (SUM : rsum (map (fun rs => if fits ops (fst rs) then sign sup (snd rs) else 0) (combine ids samples)) = rsum (map (fun rs => sign sup (snd rs)) sel)).
  { unfold sel. clear. induction (combine ids samples) as [|[r s] l IH]; [reflexivity|]. cbn [map filter fst snd rsum]. destruct (fits ops r); cbn [map rsum snd]; rewrite IH; ring. }
  unfold value. fold sup. rewrite EX, CNT, SUM. destruct sel as [|a sel0] eqn:ES; [reflexivity|]. cbn [negb]. rewrite <- ES. rewrite <- ES in *. rewrite map_map.
  assert (IN : forall rs, In rs sel -> List.length (snd rs) = n).
  { intros [r s] I. subst sel. apply filter_In in I as [I _]. apply in_combine_r in I. exact (S s I). }
  rewrite (osequence_some_map _ (fun rs => map (fun q => nth q (snd rs) false) sup)).
  2: { intros rs I. unfold columns. apply osequence_some_map. intros q J. apply nth_error_some. rewrite (IN rs I). unfold sup in J. apply in_map_iff in J as ([p q'] & <- & J). apply (letters_in n ops p q' X J). }
  destruct (map snd sel) as [|x y] eqn:EM; [rewrite ES in EM; discriminate|]. cbn [option_map]. f_equal. f_equal. rewrite map_map. f_equal. apply map_ext. intros rs. unfold sign, spin. clear. induction sup as [|q sup IH]; [reflexivity|]. cbn [map fold_right]. rewrite IH. reflexivity.
Qed.
Lemma slice_group {A} (l : list A) N K k : slice l (k * (N / K)) ((k + 1) * (N / K)) = group N K k l.
Proof. unfold slice, group. f_equal. nia. Qed.
Lemma group_length {A} (l : list A) N K k : List.length (group N K k l) = Nat.min (N / K) (List.length l - k * (N / K)).
Proof. unfold group. rewrite firstn_length, skipn_length. reflexivity. Qed.
Lemma group_in {A} (l : list A) N K k x : In x (group N K k l) -> In x l.
Proof. unfold group. intros I. assert (F : forall m (l : list A), In x (firstn m l) -> In x l) by (clear; intros m l I; rewrite <- (firstn_skipn m l); apply in_app_iff; left; exact I). apply F in I. clear F. rewrite <- (firstn_skipn (k * (N / K)) l). apply in_app_iff. right. exact I. Qed.
(** Entry [k] of the result is the mean of the products of the spins on the letters of the string, over the rows of the [k]-th of
    [K] groups of [N / K] consecutive rows that measure every letter in its basis, and 0 when no row does. *)
Theorem C16_estimators : forall set_iter n N K ids samples o ops, xyzi n ops -> string_observable set_iter o ops -> (0 < K)%nat ->
  rows_ok n ids -> strings_ok n samples -> List.length ids = List.length samples ->
  estimators set_iter N K ids samples o = Some (map (fun k =>
    let ids' := group N K k ids in let samples' := group N K k samples in
    if existsb (fits ops) ids'
    then rsum (map (fun rs => if fits ops (fst rs) then sign (map snd (letters ops)) (snd rs) else 0) (combine ids' samples')) / INR (List.length (filter (fits ops) ids'))
    else 0) (seq 0 K)).
Proof.
  intros si n N K ids samples o ops X S HK R T L. unfold estimators. rewrite (reads si n o ops X S). destruct (Nat.eqb_spec K 0) as [|_]; [lia|].
  apply osequence_some_map. intros k _. rewrite !slice_group. apply (trace_value n).
  - exact X.
  - intros row I. apply R. exact (group_in _ _ _ _ _ I).
  - intros s I. apply T. exact (group_in _ _ _ _ _ I).
  - rewrite !group_length, L. reflexivity.
Qed.
Lemma nth_map_seq (f : nat -> R) K k : (k < K)%nat -> nth k (map f (seq 0 K)) 0 = f k.
Proof. intros H. rewrite (nth_indep _ 0 (f 0%nat)) by (rewrite map_length, seq_length; exact H). rewrite map_nth, seq_nth by exact H. reflexivity. Qed.
Lemma estimator_value si n N K ids samples o ops k : xyzi n ops -> string_observable si o ops -> (k < K)%nat -> rows_ok n ids -> strings_ok n samples -> List.length ids = List.length samples ->
  estimator_of si N K ids o k samples = value ops (group N K k ids) (group N K k samples).
Proof.
  intros X S HK R T L. unfold estimator_of. rewrite (C16_estimators si n N K ids samples o ops X S ltac:(lia) R T L). 
  apply (nth_map_seq (fun k => value ops (group N K k ids) (group N K k samples))). exact HK.
Qed.

(** * Expectations *)
Definition dist (n : nat) (p : list bool -> R) : Prop := rsum (map p (bits n)) = 1.
Lemma expect_ext n ps f g : (forall bs, List.length bs = List.length ps -> strings_ok n bs -> f bs = g bs) -> expect n ps f = expect n ps g.
Proof.
  revert f g. induction ps as [|p ps IH]; intros f g H; cbn [expect]; [apply H; [reflexivity|intros s []]|]. apply rsum_ext. intros b Hb. f_equal. apply IH. intros bs L S. apply H; [cbn; rewrite L; reflexivity|]. intros s [<-|I]; [apply bits_length; exact Hb|exact (S s I)].
Qed.
Lemma rsum_const_r {A} (p : A -> R) c l : rsum (map (fun b => p b * c) l) = rsum (map p l) * c.
Proof. rewrite (Rmult_comm _ c), <- rsum_scal. apply rsum_ext. intros. ring. Qed.
Lemma expect_const n ps c : Forall (dist n) ps -> expect n ps (fun _ => c) = c.
Proof. induction 1 as [|p ps D F IH]; cbn [expect]; [reflexivity|]. rewrite IH, (rsum_const_r p c), D. ring. Qed.
Lemma expect_scal n ps k f : expect n ps (fun bs => k * f bs) = k * expect n ps f.
Proof.
  revert f. induction ps as [|p ps IH]; intros f; cbn [expect]; [reflexivity|]. rewrite <- rsum_scal. apply rsum_ext. intros b _. rewrite IH. ring.
Qed.
Lemma expect_plus n ps f g : expect n ps (fun bs => f bs + g bs) = expect n ps f + expect n ps g.
Proof.
  revert f g. induction ps as [|p ps IH]; intros f g; cbn [expect]; [reflexivity|]. rewrite <- rsum_plus. apply rsum_ext. intros b _. rewrite IH. ring.
Qed.
Lemma expect_skipn n m ps f : Forall (dist n) ps -> expect n ps (fun bs => f (skipn m bs)) = expect n (skipn m ps) f.
Proof.
  revert ps. induction m as [|m IH]; intros ps F; [reflexivity|]. destruct F as [|p ps D F]; [reflexivity|]. cbn [expect skipn]. rewrite (IH ps F), (rsum_const_r p), D. ring.
Qed.
Lemma expect_firstn n m ps f : Forall (dist n) ps -> expect n ps (fun bs => f (firstn m bs)) = expect n (firstn m ps) f.
Proof.
  revert ps f. induction m as [|m IH]; intros ps f F; [cbn [firstn]; apply expect_const; exact F|]. destruct F as [|p ps D F]; [reflexivity|]. cbn [expect firstn]. apply rsum_ext. intros b _. f_equal. exact (IH ps (fun bs => f (b :: bs)) F).
Qed.
Lemma Forall_skipn {A} (P : A -> Prop) m l : Forall P l -> Forall P (skipn m l).
Proof. revert l. induction m as [|m IH]; intros l F; [exact F|]. destruct F; [constructor|]. apply IH. assumption. Qed.
Lemma expect_group n N K k ps f : Forall (dist n) ps -> expect n ps (fun bs => f (group N K k bs)) = expect n (group N K k ps) f.
Proof.
  intros F. unfold group. rewrite (expect_skipn n _ ps (fun bs => f (firstn (N / K) bs)) F). apply expect_firstn. apply Forall_skipn. exact F.
Qed.
Lemma expect_sum {A} n (w : A -> list bool -> R) xs ps : Forall (dist n) ps -> List.length xs = List.length ps ->
  expect n ps (fun bs => rsum (map (fun xb => w (fst xb) (snd xb)) (combine xs bs))) = rsum (map (fun xp => rsum (map (fun b => snd xp b * w (fst xp) b) (bits n))) (combine xs ps)).
Proof.
  intros F. revert xs. induction F as [|p ps D F IH]; intros [|x xs] L; try discriminate; [reflexivity|]. injection L as L. cbn [expect combine map rsum fst snd].
  rewrite (rsum_ext _ (fun b => p b * w x b + p b * rsum (map (fun xp => rsum (map (fun b => snd xp b * w (fst xp) b) (bits n))) (combine xs ps)))).
  - rewrite rsum_plus, (rsum_const_r p), D. ring.
  - intros b _. rewrite expect_plus, expect_const, (IH xs L) by exact F. ring.
Qed.

(** * The estimate is unbiased *)
Lemma shot_is_prob n final psi : shot_prob false n final psi = prob n (final psi).
Proof. reflexivity. Qed.
Lemma circuits_of si n ids : set_order si -> (1 < n)%nat -> rows_ok n ids -> exists cs, shadow_circuits si n ids = Some cs /\
  Forall2 (fun row c => forall rho, den rho c = seqs (map basis_change (row_ops_from 0 row))) ids cs.
Proof.
  intros O Hn R. unfold shadow_circuits. apply Nat.ltb_lt in Hn. rewrite Hn. induction ids as [|row ids IH]; [exists []; split; [reflexivity|constructor]|].
  destruct (IH (fun r I => R r (or_intror I))) as (cs & E & F). destruct (row_circuit si row O (proj2 (R row (or_introl eq_refl)))) as (o & Eo & Do).
  exists (row_block o :: cs). cbn [map osequence]. rewrite Eo, E. split; [reflexivity|]. constructor; [exact Do|exact F].
Qed.
Definition shots (n : nat) (rho : env) (psi : St) (cs : list block) : list (list bool -> R) := map (fun c => shot_prob false n (den rho c) psi) cs.
Lemma shots_dist n rho psi ids cs : normalised n psi -> rows_ok n ids -> Forall2 (fun row c => forall rho, den rho c = seqs (map basis_change (row_ops_from 0 row))) ids cs -> Forall (dist n) (shots n rho psi cs).
Proof.
  intros Hn R F. induction F as [|row c ids cs D F IH]; [constructor|]. constructor; [|apply IH; intros r I; apply R; right; exact I].
  destruct (R row (or_introl eq_refl)) as [L B]. unfold dist. rewrite shot_is_prob. apply (shot_mean n rho psi [] row c Hn); [split; [constructor|intros p q []]|exact L|exact B|reflexivity|apply D].
Qed.
Lemma map_group {A B} (f : A -> B) N K k l : map f (group N K k l) = group N K k (map f l).
Proof. unfold group. rewrite skipn_map, firstn_map. reflexivity. Qed.
Lemma Forall2_group {A B} (P : A -> B -> Prop) N K k l l' : Forall2 P l l' -> Forall2 P (group N K k l) (group N K k l').
Proof.
  unfold group. intros F. assert (S : forall m l l', Forall2 P l l' -> Forall2 P (skipn m l) (skipn m l')) by (clear; induction m as [|m IH]; intros l l' F; [exact F|]; destruct F; [constructor|]; apply IH; assumption).
  assert (T : forall m l l', Forall2 P l l' -> Forall2 P (firstn m l) (firstn m l')) by (clear; induction m as [|m IH]; intros l l' F; [constructor|]; destruct F; [constructor|]; constructor; auto). auto.
Qed.
Theorem C16_unbiased : forall set_iter n rho psi N K k ids o ops, set_order set_iter -> (1 < n)%nat -> normalised n psi -> xyzi n ops -> string_observable set_iter o ops ->
  rows_ok n ids -> (k < K)%nat ->
  exists cs, shadow_circuits set_iter n ids = Some cs /\
    RtoC (expect n (map (fun c => shot_prob false n (den rho c) psi) cs) (estimator_of set_iter N K ids o k)) =
    if existsb (fits ops) (group N K k ids) then expval n psi (den rho o) else RtoC 0.
Proof.
  intros si n rho psi N K k ids o ops O Hn Hp X S R HK. destruct (circuits_of si n ids O Hn R) as (cs & E & F). exists cs. split; [exact E|].
  change (map (fun c => shot_prob false n (den rho c) psi) cs) with (shots n rho psi cs).
  assert (D := shots_dist n rho psi ids cs Hp R F).
  assert (Lc : List.length ids = List.length cs) by (clear - F; induction F; cbn; lia).
  rewrite (expect_ext n _ _ (fun bs => value ops (group N K k ids) (group N K k bs))).
  2: { intros bs L T. apply (estimator_value si n); try assumption. unfold shots in L. rewrite map_length in L. lia. }
  rewrite (expect_group n N K k _ (fun bs => value ops (group N K k ids) bs) D). unfold shots. rewrite <- map_group. 
  assert (F' := Forall2_group _ N K k _ _ F). assert (R' : rows_ok n (group N K k ids)) by (intros r I; apply R; exact (group_in _ _ _ _ _ I)).
  revert F' R'. generalize (group N K k ids) (group N K k cs). clear R F Lc D E. intros ids' cs' F R.
  change (map (fun c => shot_prob false n (den rho c) psi) cs') with (shots n rho psi cs'). assert (D := shots_dist n rho psi ids' cs' Hp R F).
  assert (Lc : List.length ids' = List.length cs') by (clear - F; induction F; cbn; lia).
  unfold value. destruct (existsb (fits ops) ids') eqn:EX; [|rewrite expect_const by exact D; reflexivity].
  set (W := INR (List.length (filter (fits ops) ids'))). 
  assert (W0 : W <> 0). { unfold W. apply not_0_INR. apply existsb_exists in EX as (r & I & Er). intros Z. apply length_zero_iff_nil in Z. assert (J : In r (filter (fits ops) ids')) by (apply filter_In; auto). rewrite Z in J. destruct J. }
  rewrite (expect_ext n _ _ (fun bs => / W * rsum (map (fun rs => if fits ops (fst rs) then sign (map snd (letters ops)) (snd rs) else 0) (combine ids' bs)))) by (intros; field; exact W0).
  rewrite expect_scal, (expect_sum n (fun r b => if fits ops r then sign (map snd (letters ops)) b else 0) ids' (shots n rho psi cs') D) by (unfold shots; rewrite map_length; exact Lc).
  rewrite (string_observable_den si rho o ops S).
  assert (SUM : RtoC (rsum (map (fun xp => rsum (map (fun b => snd xp b * (if fits ops (fst xp) then sign (map snd (letters ops)) b else 0)) (bits n))) (combine ids' (shots n rho psi cs')))) = (RtoC W * expval n psi (den rho (product ops)))%C).
  { unfold W. clear - Hp X F R. induction F as [|row c ids' cs' Dc F IH]; [cbn [filter combine map rsum List.length]; apply Ceq; simpl; ring|]. specialize (IH (fun r I => R r (or_intror I))). destruct (R row (or_introl eq_refl)) as [L B].
    cbn [shots map combine rsum fst snd filter]. fold (shots n rho psi cs'). rewrite RtoC_plus, IH. destruct (fits ops row) eqn:Fi.
    - cbn [List.length]. rewrite S_INR, RtoC_plus. rewrite shot_is_prob. rewrite (proj2 (shot_mean n rho psi ops row c Hp X L B Fi (Dc rho))). ring.
    - rewrite (rsum_const_r (shot_prob false n (den rho c) psi) 0), Rmult_0_r. ring. }
  rewrite RtoC_mult, SUM, RtoC_inv by exact W0. field. intros Z. apply W0. apply RtoC_inj. exact Z.
Qed.

(** * Random rows *)
Lemma average_row_const n c : average_row n (fun _ => c) = c.
Proof. induction n as [|n IH]; cbn [average_row]; [reflexivity|]. rewrite IH. field. Qed.
Lemma average_row_ext n f g : (forall row, List.length row = n -> (forall i, In i row -> (i < 3)%nat) -> f row = g row) -> average_row n f = average_row n g.
Proof.
  revert f g. induction n as [|n IH]; intros f g H; cbn [average_row]; [apply H; [reflexivity|intros i []]|].
  assert (S : forall d, (d < 3)%nat -> average_row n (fun r => f (d :: r)) = average_row n (fun r => g (d :: r))).
  { intros d Hd. apply IH. intros row L B. apply H; [cbn; rewrite L; reflexivity|]. intros i [<-|I]; auto. }
  rewrite !S by lia. reflexivity.
Qed.
Lemma average_row_lin n c d f : average_row n (fun r => c + d * f r) = c + d * average_row n f.
Proof. revert f. induction n as [|n IH]; intros f; cbn [average_row]; [reflexivity|]. rewrite !IH. field. Qed.
Lemma average_rows_const n m c : average_rows n m (fun _ => c) = c.
Proof. induction m as [|m IH]; cbn [average_rows]; [reflexivity|]. rewrite IH. apply average_row_const. Qed.
Lemma average_rows_ext n m f g : (forall ids, List.length ids = m -> rows_ok n ids -> f ids = g ids) -> average_rows n m f = average_rows n m g.
Proof.
  revert f g. induction m as [|m IH]; intros f g H; cbn [average_rows]; [apply H; [reflexivity|intros i []]|]. apply average_row_ext. intros row L B. apply IH. intros ids Li R. apply H; [cbn; rewrite Li; reflexivity|].
  intros r [<-|I]; [split; assumption|apply R; exact I].
Qed.
Lemma average_skipn n m a f : average_rows n m (fun ids => f (skipn a ids)) = average_rows n (m - a) f.
Proof.
  revert m. induction a as [|a IH]; intros m; [rewrite Nat.sub_0_r; reflexivity|]. destruct m as [|m]; [reflexivity|]. cbn [average_rows skipn Nat.sub]. rewrite IH. apply average_row_const.
Qed.
Lemma average_firstn n m a f : (a <= m)%nat -> average_rows n m (fun ids => f (firstn a ids)) = average_rows n a f.
Proof.
  revert m f. induction a as [|a IH]; intros m f H; [cbn [firstn average_rows]; apply average_rows_const|]. destruct m as [|m]; [lia|]. cbn [average_rows firstn]. apply average_row_ext. intros row _ _. apply (IH m (fun ids => f (row :: ids))). lia.
Qed.
Lemma average_exists n m (F : list nat -> bool) v p : average_row n (fun r => if F r then 1 else 0) = p ->
  average_rows n m (fun ids => if existsb F ids then v else 0) = v * (1 - (1 - p) ^ m).
Proof.
  intros Hp. induction m as [|m IH]; [cbn; ring|]. cbn [average_rows].
  rewrite (average_row_ext n _ (fun r => v * (1 - (1 - p) ^ m) + (v * (1 - p) ^ m) * (if F r then 1 else 0))).
  - rewrite average_row_lin, Hp. cbn [pow]. ring.
  - intros row _ _. cbn [existsb]. destruct (F row); cbn [orb]; [rewrite average_rows_const; ring|]. rewrite IH. ring.
Qed.
Definition row_matches (L : list (nat * nat)) (row : list nat) : bool := forallb (fun bq => Nat.eqb (fst bq) (nth (snd bq) row 3%nat)) L.
Lemma average_matches n : forall L, NoDup (map snd L) -> (forall b q, In (b, q) L -> (b < 3)%nat /\ (q < n)%nat) ->
  average_row n (fun r => if row_matches L r then 1 else 0) = (/ 3) ^ List.length L.
Proof.
  induction n as [|n IH]; intros L N B.
  - destruct L as [|[b q] L]; [reflexivity|]. destruct (B b q (or_introl eq_refl)). lia.
  - set (L0 := filter (fun bq => Nat.eqb (snd bq) 0) L). set (L1 := map (fun bq => (fst bq, pred (snd bq))) (filter (fun bq : nat * nat => negb (Nat.eqb (snd bq) 0)) L)).
    assert (SPLIT : forall d r, row_matches L (d :: r) = forallb (fun bq => Nat.eqb (fst bq) d) L0 && row_matches L1 r).
    { intros d r. unfold L0, L1, row_matches. clear. induction L as [|[b q] L IH]; [reflexivity|]. cbn [forallb filter fst snd]. rewrite IH. destruct q as [|q]; cbn [Nat.eqb negb map forallb fst snd pred nth].
      - rewrite andb_assoc. reflexivity.
      - rewrite !andb_assoc. f_equal. apply andb_comm. }
    assert (LEN : List.length L = (List.length L0 + List.length L1)%nat).
    { unfold L0, L1. rewrite map_length. clear. induction L as [|[b q] L IH]; [reflexivity|]. cbn [filter snd List.length]. destruct q; cbn [Nat.eqb negb List.length]; lia. }
    assert (I1 : average_row n (fun r => if row_matches L1 r then 1 else 0) = (/ 3) ^ List.length L1).
    { apply IH.
      - unfold L1. rewrite map_map. cbn [snd]. clear - N. induction L as [|[b q] L IHL]; [constructor|]. cbn [map snd] in N. inversion N as [|x y N1 N2]; subst. cbn [filter snd]. destruct q as [|q]; cbn [Nat.eqb negb]; [exact (IHL N2)|]. cbn [map snd pred]. constructor; [|exact (IHL N2)].
        intros I. apply in_map_iff in I as ([b' q'] & E & I). cbn [snd] in E. apply filter_In in I as [I E']. cbn [snd] in E'. destruct q' as [|q']; [discriminate|]. cbn [pred] in E. subst q'. apply N1. apply (in_map snd) in I. exact I.
      - intros b q I. unfold L1 in I. apply in_map_iff in I as ([b' q'] & E & I). cbn [fst snd] in E. injection E as <- <-. apply filter_In in I as [I E']. cbn [snd] in E'. destruct (B b' q' I). destruct q' as [|q']; [discriminate|]. cbn [pred]. lia. }
    assert (TERM : forall d, average_row n (fun r => if row_matches L (d :: r) then 1 else 0) = if forallb (fun bq => Nat.eqb (fst bq) d) L0 then (/ 3) ^ List.length L1 else 0).
    { intros d. rewrite <- I1. destruct (forallb (fun bq => Nat.eqb (fst bq) d) L0) eqn:E.
      - apply average_row_ext. intros r _ _. rewrite SPLIT, E. reflexivity.
      - transitivity (average_row n (fun _ => 0)); [|apply average_row_const]. apply average_row_ext. intros r _ _. rewrite SPLIT, E. reflexivity. }
    cbn [average_row]. rewrite !TERM, LEN.
    assert (N0 : NoDup (map snd L0)). { unfold L0. clear - N. induction L as [|[b q] L IHL]; [constructor|]. cbn [map snd] in N. inversion N as [|x y N1 N2]; subst. cbn [filter snd]. destruct q; cbn [Nat.eqb]; [|exact (IHL N2)]. cbn [map snd]. constructor; [|exact (IHL N2)].
      intros I. apply in_map_iff in I as ([b' q'] & E & I). cbn [snd] in E. subst q'. apply filter_In in I as [I _]. apply N1. apply (in_map snd) in I. exact I. }
    assert (Z0 : forall b q, In (b, q) L0 -> q = 0%nat /\ (b < 3)%nat) by (intros b q I; unfold L0 in I; apply filter_In in I as [I E]; cbn [snd] in E; apply Nat.eqb_eq in E; split; [exact E|exact (proj1 (B b q I))]).
    destruct L0 as [|[b q] [|[b' q'] L0]].
    + cbn [forallb List.length Nat.add]. field.
    + destruct (Z0 b q (or_introl eq_refl)) as [-> Hb]. cbn [forallb List.length Nat.add fst pow]. rewrite !andb_true_r. destruct b as [|[|[|b]]]; [| | |lia]; cbn [Nat.eqb]; field.
    + exfalso. destruct (Z0 b q (or_introl eq_refl)) as [-> _]. destruct (Z0 b' q' (or_intror (or_introl eq_refl))) as [-> _]. cbn [map snd] in N0. inversion N0 as [|x y N1 N2]; subst. apply N1. left. reflexivity.
Qed.
Lemma fits_matches ops row : fits ops row = row_matches (map (fun pq => (basis (fst pq), snd pq)) (letters ops)) row.
Proof.
  unfold fits, row_matches, letters. induction ops as [|[p q] ops IH]; [reflexivity|]. cbn [forallb filter fst snd]. rewrite IH. destruct p; reflexivity.
Qed.
Lemma letters_nodup n ops : xyzi n ops -> NoDup (map snd (letters ops)).
Proof.
  intros [N _]. unfold letters. induction ops as [|[p q] ops IH]; [constructor|]. cbn [map snd] in N. inversion N as [|x y N1 N2]; subst. cbn [filter fst].
  destruct (match p with PI_ => false | _ => true end); [|exact (IH N2)]. cbn [map snd]. constructor; [|exact (IH N2)]. intros I. apply N1. apply in_map_iff in I as (pq & E & I). apply filter_In in I as [I _]. apply in_map_iff. exists pq. auto.
Qed.
Lemma basis_lt p : (basis p < 3)%nat.
Proof. destruct p; cbn; lia. Qed.
Lemma average_fits n ops : xyzi n ops -> average_row n (fun r => if fits ops r then 1 else 0) = (/ 3) ^ weight ops.
Proof.
  intros X. rewrite (average_row_ext n _ (fun r => if row_matches (map (fun pq => (basis (fst pq), snd pq)) (letters ops)) r then 1 else 0)) by (intros; rewrite fits_matches; reflexivity).
  rewrite average_matches.
  - rewrite map_length. reflexivity.
  - rewrite map_map. exact (letters_nodup n ops X).
  - intros b q I. apply in_map_iff in I as ([p q'] & E & I). cbn [fst snd] in E. injection E as <- <-. split; [apply basis_lt|]. apply (letters_in n ops p q' X I).
Qed.
(** Averaged over uniformly random bases as well, every group estimator is the expectation value times the probability that some
    row of the group measures the string. *)
Theorem C16_random : forall set_iter n rho psi N K k o ops v, set_order set_iter -> (1 < n)%nat -> normalised n psi -> xyzi n ops -> string_observable set_iter o ops ->
  (k < K)%nat -> expval n psi (den rho o) = RtoC v ->
  average_rows n N (fun ids => match shadow_circuits set_iter n ids with
    | Some cs => expect n (map (fun c => shot_prob false n (den rho c) psi) cs) (estimator_of set_iter N K ids o k)
    | None => 0 end) = v * (1 - (1 - (/ 3) ^ weight ops) ^ (N / K)).
Proof.
  intros si n rho psi N K k o ops v O Hn Hp X S HK V.
  rewrite (average_rows_ext n N _ (fun ids => if existsb (fits ops) (group N K k ids) then v else 0)).
  - unfold group. rewrite (average_skipn n N _ (fun ids => if existsb (fits ops) (firstn (N / K) ids) then v else 0)).
    rewrite (average_firstn n _ _ (fun ids => if existsb (fits ops) ids then v else 0)).
    + apply average_exists. apply average_fits. exact X.
    + assert (K * (N / K) <= N)%nat by (apply Nat.mul_div_le; lia). nia.
  - intros ids L R. destruct (C16_unbiased si n rho psi N K k ids o ops O Hn Hp X S R HK) as (cs & E & M). rewrite E. apply RtoC_inj. rewrite M. destruct (existsb (fits ops) (group N K k ids)); [rewrite V|]; reflexivity.
Qed.

(** * Eigenstates *)
Lemma rsum_zero_each {A} (f : A -> R) l : (forall x, In x l -> 0 <= f x) -> rsum (map f l) = 0 -> forall x, In x l -> f x = 0.
Proof.
  induction l as [|a l IH]; intros P E x I; [destruct I|]. cbn [map rsum] in E.
  assert (T : 0 <= rsum (map f l)). { clear - P. induction l as [|b l IH]; cbn; [lra|]. assert (0 <= f b) by (apply P; cbn; auto). assert (0 <= rsum (map f l)) by (apply IH; intros x [->|I]; apply P; cbn; auto). lra. }
  assert (Q := P a (or_introl eq_refl)). destruct I as [<-|I]; [lra|]. apply IH; [intros y J; apply P; right; exact J|lra|exact I].
Qed.
Lemma shot_certain n rho psi ops row b s e : normalised n psi -> xyzi n ops -> List.length row = n -> (forall i, In i row -> (i < 3)%nat) -> fits ops row = true ->
  den rho b = seqs (map basis_change (row_ops_from 0 row)) -> (e = 1 \/ e = -1) -> expval n psi (den rho (product ops)) = RtoC e ->
  List.length s = n -> 0 < prob n (den rho b psi) s -> sign (map snd (letters ops)) s = e.
Proof.
  intros Hn X L B F D He V Ls P. destruct (shot_mean n rho psi ops row b Hn X L B F D) as [T M]. rewrite V in M. apply RtoC_inj in M.
  set (pr := prob n (den rho b psi)) in *. set (sg := sign (map snd (letters ops))) in *.
  assert (Z : rsum (map (fun s => pr s * (1 - e * sg s)) (bits n)) = 0).
  { rewrite (rsum_ext _ (fun s => pr s + (- e) * (pr s * sg s))) by (intros; ring). rewrite rsum_plus, (rsum_scal (- e) (fun s => pr s * sg s)), T, M. destruct He as [-> | ->]; lra. }
  assert (Z' := rsum_zero_each (fun s => pr s * (1 - e * sg s)) (bits n)). specialize (Z' ltac:(
    intros r _; apply Rmult_le_pos; [apply prob_nonneg|]; destruct (sign_pm (map snd (letters ops)) r) as [Q|Q]; fold sg in Q; rewrite Q; destruct He as [-> | ->]; lra) Z s ltac:(apply in_bits_iff; exact Ls)).
  apply Rmult_integral in Z' as [Z'|Z']; [lra|]. destruct (sign_pm (map snd (letters ops)) s) as [Q|Q]; fold sg in Q; rewrite Q in *; destruct He as [-> | ->]; lra.
Qed.
(** Samples that can be drawn: each has positive probability. *)
Definition possible (n : nat) (rho : env) (psi : St) (cs : list block) (samples : list (list bool)) : Prop :=
  Forall2 (fun c s => List.length s = n /\ 0 < shot_prob false n (den rho c) psi s) cs samples.
Lemma Forall2_cons_l {A B} (P : A -> B -> Prop) a l l' : Forall2 P (a :: l) l' -> exists b r, P a b /\ Forall2 P l r /\ l' = b :: r.
Proof. intros F. inversion F; subst. eauto. Qed.
Lemma value_certain n rho psi ops ids cs samples e : normalised n psi -> xyzi n ops -> rows_ok n ids ->
  Forall2 (fun row c => forall rho, den rho c = seqs (map basis_change (row_ops_from 0 row))) ids cs -> possible n rho psi cs samples ->
  (e = 1 \/ e = -1) -> expval n psi (den rho (product ops)) = RtoC e -> existsb (fits ops) ids = true -> value ops ids samples = e.
Proof.
  intros Hn X R F P He V EX. unfold value. rewrite EX.
  assert (SUM : rsum (map (fun rs => if fits ops (fst rs) then sign (map snd (letters ops)) (snd rs) else 0) (combine ids samples)) = INR (List.length (filter (fits ops) ids)) * e).
  { clear EX. revert samples P. induction F as [|row c ids cs D F IH]; intros samples P; [cbn; ring|]. apply Forall2_cons_l in P as (s & samples' & [Ls Ps] & P' & ->). cbn [combine map rsum fst snd filter]. rewrite (IH (fun r I => R r (or_intror I)) samples' P').
    destruct (R row (or_introl eq_refl)) as [L B]. destruct (fits ops row) eqn:Fi; [|ring]. cbn [List.length]. rewrite S_INR.
    rewrite (shot_certain n rho psi ops row c s e Hn X L B Fi (D rho) He V Ls Ps). ring. }
  rewrite SUM. field. apply not_0_INR. apply existsb_exists in EX as (r & I & Er). intros Z. apply length_zero_iff_nil in Z. assert (J : In r (filter (fits ops) ids)) by (apply filter_In; auto). rewrite Z in J. destruct J.
Qed.
(** On an eigenstate of the string every group that measures it returns the eigenvalue, whatever is drawn. *)
Theorem C16_eigenstate : forall set_iter n rho psi N K k ids cs samples o ops e, set_order set_iter -> (1 < n)%nat -> normalised n psi -> xyzi n ops -> string_observable set_iter o ops ->
  rows_ok n ids -> shadow_circuits set_iter n ids = Some cs -> possible n rho psi cs samples -> (k < K)%nat ->
  (e = 1 \/ e = -1) -> expval n psi (den rho o) = RtoC e ->
  estimator_of set_iter N K ids o k samples = if existsb (fits ops) (group N K k ids) then e else 0.
Proof.
  intros si n rho psi N K k ids cs samples o ops e O Hn Hp X S R E P HK He V. destruct (circuits_of si n ids O Hn R) as (cs' & E' & F). rewrite E in E'. injection E' as <-.
  assert (L1 : List.length ids = List.length cs) by (clear - F; induction F; cbn; lia). assert (L2 : List.length cs = List.length samples) by (clear - P; induction P; cbn; lia).
  assert (T : strings_ok n samples) by (clear - P; induction P as [|c s cs ss [H _] P IH]; intros x I; [destruct I|destruct I as [<-|I]]; auto).
  rewrite (estimator_value si n N K ids samples o ops k X S HK R T ltac:(lia)). destruct (existsb (fits ops) (group N K k ids)) eqn:EX; [|unfold value; rewrite EX; reflexivity].
  apply (value_certain n rho psi ops _ (group N K k cs)); try assumption.
  - intros r I. apply R. exact (group_in _ _ _ _ _ I).
  - apply Forall2_group. exact F.
  - apply Forall2_group. exact P.
  - rewrite <- (string_observable_den si rho o ops S). exact V.
Qed.

(** * The median *)
Lemma insert_perm x l : Permutation (insert_sorted x l) (x :: l).
Proof. induction l as [|y l IH]; [reflexivity|]. cbn [insert_sorted]. destruct (Rle_dec x y); [reflexivity|]. rewrite IH. apply perm_swap. Qed.
Lemma sort_perm l : Permutation (sort l) l.
Proof. induction l as [|x l IH]; [reflexivity|]. cbn [sort fold_right]. fold (sort l). rewrite insert_perm, IH. reflexivity. Qed.
Lemma insert_sorted_ok x l : StronglySorted Rle l -> StronglySorted Rle (insert_sorted x l).
Proof.
  induction 1 as [|y l S IH F]; [repeat constructor|]. cbn [insert_sorted]. destruct (Rle_dec x y) as [H|H].
  - constructor; [constructor; assumption|]. constructor; [exact H|]. eapply Forall_impl; [|exact F]. intros z Hz. lra.
  - constructor; [exact IH|]. apply Forall_forall. intros z I. apply (Permutation_in _ (insert_perm x l)) in I as [<-|I]; [lra|]. rewrite Forall_forall in F. exact (F z I).
Qed.
Lemma sort_sorted l : StronglySorted Rle (sort l).
Proof. induction l as [|x l IH]; [constructor|]. apply insert_sorted_ok. exact IH. Qed.
Definition count (P : R -> Prop) (dec : forall x, {P x} + {~ P x}) (l : list R) : nat := List.length (filter (fun x => if dec x then true else false) l).
Lemma count_perm P dec l l' : Permutation l l' -> count P dec l = count P dec l'.
Proof. unfold count. induction 1; cbn [filter]; try destruct (dec x); try destruct (dec y); cbn [List.length]; congruence. Qed.
Lemma sorted_counts l : StronglySorted Rle l -> forall i, (i < List.length l)%nat ->
  (i + 1 <= count (fun x => x <= nth i l 0)%R (fun x => Rle_dec x (nth i l 0%R)) l)%nat /\
  (List.length l - i <= count (fun x => nth i l 0 <= x)%R (fun x => Rle_dec (nth i l 0%R) x) l)%nat.
Proof.
  induction 1 as [|y l S IH F]; intros i H; cbn [List.length] in H; [lia|]. destruct i as [|i].
  - cbn [nth List.length]. unfold count. cbn [filter]. destruct (Rle_dec y y) as [_|N]; [|lra]. cbn [List.length]. split; [lia|].
    assert (A : List.length (filter (fun x => if Rle_dec y x then true else false) l) = List.length l). { clear - F. induction F as [|x l H F IH]; [reflexivity|]. cbn [filter]. destruct (Rle_dec y x); [|contradiction]. cbn [List.length]. rewrite IH. reflexivity. }
    rewrite A. lia.
  - cbn [nth List.length]. destruct (IH i ltac:(lia)) as [A B]. unfold count in *. cbn [filter].
    assert (Q : y <= nth i l 0) by (rewrite Forall_forall in F; apply F; apply nth_In; lia). split.
    + destruct (Rle_dec y (nth i l 0)); [|contradiction]. cbn [List.length]. lia.
    + destruct (Rle_dec (nth i l 0) y); cbn [List.length]; lia.
Qed.
(** The value combined from the groups is one of them, and at least half of them are on either side of it. *)
Theorem C16_median : forall l, l <> [] -> In (median l) l /\
  (List.length l <= 2 * List.length (filter (fun x => if Rle_dec x (median l) then true else false) l))%nat /\
  (List.length l <= 2 * List.length (filter (fun x => if Rle_dec (median l) x then true else false) l))%nat.
Proof.
  intros l Ne. assert (Hl : (0 < List.length l)%nat) by (destruct l; [congruence|cbn; lia]). assert (PL := Permutation_length (sort_perm l)).
  assert (D : ((List.length l - 1) / 2 < List.length (sort l))%nat) by (rewrite PL; pose proof (Nat.mul_div_le (List.length l - 1) 2); lia).
  split; [unfold median; apply (Permutation_in _ (sort_perm l)); apply nth_In; exact D|].
  destruct (sorted_counts (sort l) (sort_sorted l) _ D) as [A B]. fold (median l) in A, B. rewrite (count_perm _ _ _ _ (sort_perm l)) in A. rewrite (count_perm _ _ _ _ (sort_perm l)) in B. unfold count in A, B. rewrite PL in B.
  pose proof (Nat.mul_div_le (List.length l - 1) 2 ltac:(lia)). pose proof (Nat.mul_succ_div_gt (List.length l - 1) 2 ltac:(lia)). lia.
Qed.
Lemma median_const l v : l <> [] -> (forall x, In x l -> x = v) -> median l = v.
Proof. intros N H. apply H. apply C16_median. exact N. Qed.

(** * Observables *)
(** A term of which the state is an eigenstate, with a real coefficient, and which some row of every group measures. *)
Definition certain (set_iter : list nat -> list nat) (n : nat) (rho : env) (psi : St) (N K : nat) (ids : list (list nat)) (tc : block * expr) : Prop :=
  ev rho (snd tc) = RtoC (ang rho (snd tc)) /\
  ((exists q, fst tc = BPrim PI_ q) \/
   exists ops e, xyzi n ops /\ string_observable set_iter (fst tc) ops /\ (e = 1 \/ e = -1) /\ expval n psi (den rho (fst tc)) = RtoC e /\
     forall k, (k < K)%nat -> existsb (fits ops) (group N K k ids) = true).
Lemma some_eq {A} (x y : A) : Some x = Some y -> x = y.
Proof. congruence. Qed.
Theorem C16_exact : forall set_iter n rho psi N K ids cs samples o, set_order set_iter -> (1 < n)%nat -> normalised n psi -> (0 < K)%nat ->
  rows_ok n ids -> shadow_circuits set_iter n ids = Some cs -> possible n rho psi cs samples ->
  (forall tc, In tc (unroll_block_with_scaling o) -> certain set_iter n rho psi N K ids tc) ->
  exists v, estimate set_iter rho N K ids samples o = Some v /\ RtoC v = expval n psi (den rho o).
Proof.
  intros si n rho psi N K ids cs samples o O Hn Hp HK R E P C. unfold estimate. rewrite <- (C48_sum rho o).
  assert (L1 : List.length ids = List.length samples /\ strings_ok n samples).
  { destruct (circuits_of si n ids O Hn R) as (cs' & E' & F). rewrite E in E'. injection E' as <-. split.
    - transitivity (List.length cs); [clear - F; induction F; cbn; lia|clear - P; induction P; cbn; lia].
    - clear - P. induction P as [|c s cs ss [H _] P IH]; intros x I; [destruct I|destruct I as [<-|I]]; auto. }
  destruct L1 as [L1 T].
  induction (unroll_block_with_scaling o) as [|[t c] l IH]; [exists 0; split; [reflexivity|cbn; rewrite expval_zero; reflexivity]|].
  destruct IH as (v & Ev & V); [intros tc I; apply C; right; exact I|]. destruct (C (t, c) (or_introl eq_refl)) as [Hc H]. cbn [fst snd] in *.
  assert (T1 : exists es m, estimators si N K ids samples t = Some es /\ median es = m /\ RtoC m = expval n psi (den rho t)).
  { destruct H as [(q & ->)|(ops & e & X & S & He & V' & G)].
    - exists [1], 1. split; [reflexivity|]. split; [reflexivity|]. change (den rho (BPrim PI_ q)) with (gate1 q (prim_mat PI_)). rewrite (gate1_id q (prim_mat PI_)) by (intros a b; destruct a, b; reflexivity). symmetry. exact Hp.
    - assert (Q := C16_estimators si n N K ids samples t ops X S HK R T L1). rewrite Q. eexists. exists e. split; [reflexivity|]. split; [|symmetry; exact V'].
      apply median_const; [destruct K; [lia|discriminate]|]. intros x I. apply in_map_iff in I as (k & <- & I). apply in_seq in I. cbv zeta.
      assert (M := C16_eigenstate si n rho psi N K k ids cs samples t ops e O Hn Hp X S R E P ltac:(lia) He V'). rewrite (G k) in M by lia. unfold estimator_of in M. rewrite Q in M. 
      rewrite (nth_map_seq (fun k => value ops (group N K k ids) (group N K k samples))) in M by lia. exact M. }
  destruct T1 as (es & m & E1 & <- & V1). cbn [map osequence fst snd]. rewrite E1. cbn [option_map].
  destruct (osequence (map (fun tc => option_map (fun e => median e * ang rho (snd tc)) (estimators si N K ids samples (fst tc))) l)) as [vs|] eqn:Eo; [|discriminate]. cbn [option_map] in Ev. apply some_eq in Ev. subst v.
  exists (median es * ang rho c + rsum vs). split; [reflexivity|].
  change (weighted rho ((t, c) :: l)) with (addop (scaleop (ev rho c) (den rho t)) (weighted rho l)). rewrite expval_add, expval_scale, RtoC_plus, RtoC_mult, V, V1, Hc. ring.
Qed.

(** * The budget *)
Definition is_string (n : nat) (t : block) (ops : list (prim * nat)) : Prop :=
  xyzi n ops /\ (t = product ops \/ exists p q, t = BPrim p q /\ ops = [(p, q)]).
Lemma term_weight_string n t ops : is_string n t ops -> term_weight t = Some (weight ops).
Proof.
  intros [[_ X] [->|(p & q & -> & ->)]].
  - unfold term_weight. cbn [product is_primitive]. unfold get_pauli_blocks, product.
    assert (P : primitive_blocks (BKron (map (fun pq => BPrim (fst pq) (snd pq)) ops)) = map (fun pq => BPrim (fst pq) (snd pq)) ops).
    { clear. cbn [primitive_blocks]. induction ops as [|[p q] ops IH]; [reflexivity|]. cbn in *. f_equal. exact IH. }
    rewrite P. assert (C : collect_paulis (map (fun pq => BPrim (fst pq) (snd pq)) ops) = Some (map (fun pq => BPrim (fst pq) (snd pq)) ops)).
    { clear P. induction ops as [|[p q] ops IH]; [reflexivity|]. cbn [map collect_paulis fst snd]. rewrite IH by (intros p' q' I; apply X; right; exact I). destruct (X p q (or_introl eq_refl)) as [[-> | [-> | [-> | ->]]] _]; reflexivity. }
    rewrite C. cbn [option_map]. f_equal. unfold weight. clear P C. induction ops as [|[p q] ops IH]; [reflexivity|]. cbn [map filter fst snd]. specialize (IH (fun p' q' I => X p' q' (or_intror I))).
    destruct (X p q (or_introl eq_refl)) as [[-> | [-> | [-> | ->]]] _]; cbn [is_xyz List.length]; rewrite IH; reflexivity.
  - destruct (X p q (or_introl eq_refl)) as [[-> | [-> | [-> | ->]]] _]; reflexivity.
Qed.
Lemma pymax_spec l m : pymax l = Some m -> In m l /\ forall x, In x l -> (x <= m)%nat.
Proof.
  destruct l as [|a l]; [discriminate|]. cbn [pymax]. intros E. injection E as <-. revert a. induction l as [|b l IH]; intros a; [split; [left; reflexivity|intros x [<-|[]]; cbn; lia]|]. cbn [fold_left].
  destruct (IH (Nat.max a b)) as [A B]. split.
  - destruct A as [A|A]; [|right; right; exact A]. destruct (Nat.max_dec a b) as [M|M]; rewrite M in A; [left|right; left]; rewrite M; exact A.
  - assert (B0 := B _ (or_introl eq_refl)). intros x [<-|[<-|I]]; [| |apply B; right; exact I]; (eapply Nat.le_trans; [|exact B0]); [apply Nat.le_max_l|apply Nat.le_max_r].
Qed.
(** The largest weight that sets the budget is the largest number of letters other than the identity in a term. *)
Theorem C16_weight : forall n os, os <> [] -> (forall o, In o os -> unroll_block_with_scaling o <> [] /\ forall tc, In tc (unroll_block_with_scaling o) -> exists ops, is_string n (fst tc) ops) ->
  exists w, maximal_weight os = Some w /\
    (exists o tc ops, In o os /\ In tc (unroll_block_with_scaling o) /\ is_string n (fst tc) ops /\ weight ops = w) /\
    forall o tc ops, In o os -> In tc (unroll_block_with_scaling o) -> is_string n (fst tc) ops -> (weight ops <= w)%nat.
Proof.
  intros n os No H.
  assert (ONE : forall o, In o os -> exists w, max_observable_weight o = Some w /\ (exists tc ops, In tc (unroll_block_with_scaling o) /\ is_string n (fst tc) ops /\ weight ops = w) /\
    forall tc ops, In tc (unroll_block_with_scaling o) -> is_string n (fst tc) ops -> (weight ops <= w)%nat).
  { intros o Io. destruct (H o Io) as [Ne S]. unfold max_observable_weight. set (l := unroll_block_with_scaling o) in *.
    set (wt := fun tc : block * expr => match term_weight (fst tc) with Some w => w | None => 0%nat end).
    rewrite (osequence_some_map _ wt) by (intros tc I; destruct (S tc I) as (ops & Sx); unfold wt; rewrite (term_weight_string n _ _ Sx); reflexivity).
    destruct (pymax (map wt l)) as [w|] eqn:E; [|destruct l; [congruence|discriminate]]. exists w. split; [reflexivity|]. destruct (pymax_spec _ _ E) as [A B]. split.
    - apply in_map_iff in A as (tc & Ew & I). destruct (S tc I) as (ops & Sx). exists tc, ops. split; [exact I|]. split; [exact Sx|]. unfold wt in Ew. rewrite (term_weight_string n _ _ Sx) in Ew. exact Ew.
    - intros tc ops I Sx. specialize (B (wt tc) (in_map wt _ _ I)). unfold wt in B. rewrite (term_weight_string n _ _ Sx) in B. exact B. }
  unfold maximal_weight. set (wt := fun o : block => match max_observable_weight o with Some w => w | None => 0%nat end).
  rewrite (osequence_some_map _ wt) by (intros o I; destruct (ONE o I) as (w & E & _); unfold wt; rewrite E; reflexivity).
  destruct (pymax (map wt os)) as [w|] eqn:E; [|destruct os; [congruence|discriminate]]. exists w. split; [reflexivity|]. destruct (pymax_spec _ _ E) as [A B]. split.
  - apply in_map_iff in A as (o & Ew & I). destruct (ONE o I) as (w' & E' & (tc & ops & I1 & S1 & W1) & _). exists o, tc, ops. unfold wt in Ew. rewrite E' in Ew. subst w'. auto.
  - intros o tc ops I I1 S1. destruct (ONE o I) as (w' & E' & _ & M). specialize (B (wt o) (in_map wt _ _ I)). unfold wt in B. rewrite E' in B. specialize (M tc ops I1 S1). lia.
Qed.
Example C16_weight_ex : maximal_weight [BAdd [BScale (BPrim PZ 2) (ECst (RtoC 3)); BPrim PI_ 0]; product [(PX, 0%nat); (PI_, 1%nat); (PZ, 2%nat)]] = Some 2%nat.
Proof. reflexivity. Qed.

(** * Groups *)
Lemma slice_below {A} (l l' : list A) m lo hi : firstn m l = firstn m l' -> (hi <= m)%nat -> slice l lo hi = slice l' lo hi.
Proof.
  intros E H. unfold slice. assert (F : forall l : list A, firstn (hi - lo) (skipn lo l) = skipn lo (firstn hi (firstn m l))).
  { intros x. rewrite firstn_firstn, Nat.min_l by lia. rewrite firstn_skipn_comm. destruct (le_lt_dec lo hi) as [L|L]; [f_equal; f_equal; lia|].
    replace (hi - lo)%nat with 0%nat by lia. rewrite Nat.add_0_r. rewrite !skipn_all2; [reflexivity| |]; rewrite firstn_length; lia. }
  rewrite (F l), (F l'), E. reflexivity.
Qed.
(** Only the first K * (N / K) rows are used. *)
Theorem C16_remainder : forall set_iter N K ids ids' samples samples' o, firstn (K * (N / K)) ids = firstn (K * (N / K)) ids' -> firstn (K * (N / K)) samples = firstn (K * (N / K)) samples' ->
  estimators set_iter N K ids samples o = estimators set_iter N K ids' samples' o.
Proof.
  intros si N K ids ids' samples samples' o E1 E2. unfold estimators. destruct (read_observable si o) as [[|idx sup]|]; try reflexivity. destruct (Nat.eqb K 0); [reflexivity|]. f_equal. apply map_ext_in. intros k I. apply in_seq in I.
  assert (H : ((k + 1) * (N / K) <= K * (N / K))%nat) by (apply Nat.mul_le_mono_r; lia). rewrite (slice_below ids ids' _ _ _ E1 H), (slice_below samples samples' _ _ _ E2 H). reflexivity.
Qed.
(** With fewer rows than groups every estimate of a string that is not the identity is 0. *)
Theorem C16_too_few : forall set_iter n N K ids samples o ops, xyzi n ops -> string_observable set_iter o ops -> rows_ok n ids -> strings_ok n samples -> List.length ids = List.length samples ->
  (N < K)%nat -> exists es, estimators set_iter N K ids samples o = Some es /\ median es = 0.
Proof.
  intros si n N K ids samples o ops X S R T L H. rewrite (C16_estimators si n N K ids samples o ops X S ltac:(lia) R T L). eexists. split; [reflexivity|]. apply median_const; [destruct K; [lia|discriminate]|].
  intros x I. apply in_map_iff in I as (k & <- & _). unfold group. rewrite (Nat.div_small N K H). reflexivity.
Qed.
(** One-qubit circuits raise. *)
Theorem C16_one_qubit : forall set_iter ids, ids <> [] -> shadow_circuits set_iter 1 ids = None.
Proof. intros si [|r ids] N; [congruence|]. reflexivity. Qed.
(** Sorted factors are in the order the estimator reads them, when sets of the integers below [n] are iterated in ascending order. *)
Lemma sorted_unique (l l' : list nat) : StronglySorted lt l -> StronglySorted lt l' -> (forall q, In q l <-> In q l') -> l = l'.
Proof.
  intros S. revert l'. induction S as [|a l S IH F]; intros l' S' H.
  - destruct l' as [|b l']; [reflexivity|]. destruct (proj2 (H b) (or_introl eq_refl)).
  - destruct S' as [|b l' S' F']; [destruct (proj1 (H a) (or_introl eq_refl))|]. rewrite Forall_forall in F, F'.
    assert (a = b). { destruct (proj1 (H a) (or_introl eq_refl)) as [E|I]; [congruence|]. destruct (proj2 (H b) (or_introl eq_refl)) as [E|J]; [congruence|]. specialize (F b J). specialize (F' a I). lia. }
    subst b. f_equal. apply IH; [exact S'|]. intros q. split; intros I.
    + destruct (proj1 (H q) (or_intror I)) as [<-|J]; [|exact J]. specialize (F a I). lia.
    + destruct (proj2 (H q) (or_intror I)) as [<-|J]; [|exact J]. specialize (F' a I). lia.
Qed.
Lemma sum_sorted si n qs acc : (forall l, (forall q, In q l -> (q < n)%nat) -> StronglySorted lt (si l)) -> set_order si -> (forall q, In q qs -> (q < n)%nat) ->
  (forall q, In q acc -> (q < n)%nat) -> StronglySorted lt acc ->
  exists l, fold_left (qs_add si) (map (fun q => SLocal [q]) qs) (SLocal acc) = SLocal l /\ StronglySorted lt l /\ forall q, In q l -> (q < n)%nat.
Proof.
  intros A O. revert acc. induction qs as [|q qs IH]; intros acc B Ba Sa; [exists acc; split; [reflexivity|split; assumption]|]. cbn [map fold_left].
  unfold qs_add at 2. destruct (support_eqb (SLocal acc) (SLocal [q])).
  - apply IH; [intros; apply B; right; assumption|exact Ba|exact Sa].
  - assert (Bq : forall x, In x (acc ++ [q]) -> (x < n)%nat) by (intros x I; apply in_app_iff in I as [I|[<-|[]]]; [exact (Ba x I)|apply B; left; reflexivity]).
    apply IH; [intros; apply B; right; assumption| |apply A; exact Bq]. intros x I. exact (Bq x (proj1 (proj2 (O (acc ++ [q])) x) I)).
Qed.
Theorem C16_ascending : forall set_iter n ops, set_order set_iter -> (forall l, (forall q, In q l -> (q < n)%nat) -> StronglySorted lt (set_iter l)) ->
  (forall p q, In (p, q) ops -> (q < n)%nat) -> StronglySorted lt (map snd ops) -> in_support_order set_iter ops.
Proof.
  intros si n ops O A B S. unfold in_support_order. destruct (bsup_spec si O (product ops)) as (l & E & I & _). rewrite E. cbn [locals]. apply sorted_unique; [|exact S|].
  - cbn [product bsup] in E. rewrite map_map in E. cbn [bsup] in E. unfold sum_supports in E.
    destruct (sum_sorted si n (map snd ops) [] A O) as (m & Em & Sm & Bm).
    + intros q J. apply in_map_iff in J as ([p q'] & <- & J). exact (B p q' J).
    + intros q [].
    + constructor.
    + rewrite map_map in Em. rewrite Em in E. unfold qs_add in E. destruct (support_eqb (SLocal m) (SLocal [])); injection E as <-; [exact Sm|]. apply A. rewrite app_nil_r. exact Bm.
  - intros q. rewrite I. cbn [product qubits]. rewrite in_flat_map. split.
    + intros (b & J & K). apply in_map_iff in J as ([p q'] & <- & J). destruct K as [<-|[]]. apply in_map_iff. exists (p, q'). auto.
    + intros J. apply in_map_iff in J as ([p q'] & <- & J). exists (BPrim p q'). split; [apply in_map_iff; exists (p, q'); auto|left; reflexivity].
Qed.

(** * Where it goes wrong *)
(** The letters are read in the order of the factors, the columns in the order of the qubit support: kron(X(1), Z(0)) is estimated as
    kron(X(0), Z(1)), whatever the data. *)
Lemma two_asc : bsup asc (product [(PX, 1%nat); (PZ, 0%nat)]) = SLocal [0; 1]%nat.
Proof. reflexivity. Qed.
Theorem C16_order_refuted : (forall N K ids samples, estimators asc N K ids samples (product [(PX, 1%nat); (PZ, 0%nat)]) = estimators asc N K ids samples (product [(PX, 0%nat); (PZ, 1%nat)])) /\
  exists psi, normalised 2 psi /\ forall rho, expval 2 psi (den rho (product [(PX, 0%nat); (PZ, 1%nat)])) = RtoC 1 /\ expval 2 psi (den rho (product [(PX, 1%nat); (PZ, 0%nat)])) = RtoC 0.
Proof.
  split; [reflexivity|]. exists plus0. assert (S2 : (RtoC (/ sqrt 2) * RtoC (/ sqrt 2) = RtoC (/ 2))%C).
  { rewrite <- RtoC_mult. f_equal. rewrite <- Rinv_mult. rewrite sqrt_sqrt by lra. reflexivity. }
  assert (S3 : (/ RtoC (sqrt 2))%C = RtoC (/ sqrt 2)) by (symmetry; apply RtoC_inv; apply Rgt_not_eq, sqrt_lt_R0; lra).
  split; [|intros rho; split].
  - unfold normalised, inner, amps, plus0. cbn. rewrite S3, !Cconj_RtoC, S2. apply Ceq; simpl; lra.
  - unfold expval, inner, amps, plus0. cbn. unfold seqop, gate1, gate, csum, idop. cbn. rewrite S3, !Cconj_RtoC. transitivity (RtoC (/ sqrt 2) * RtoC (/ sqrt 2) + RtoC (/ sqrt 2) * RtoC (/ sqrt 2))%C; [ring|]. rewrite S2. apply Ceq; simpl; lra.
  - unfold expval, inner, amps, plus0. cbn. unfold seqop, gate1, gate, csum, idop. cbn. rewrite S3, !Cconj_RtoC. apply Ceq; simpl; lra.
Qed.

(** Little-endian runs reverse the state and the outcomes but not the rows: |00> has <Z(0)> = 1, the row (Z, X) measures Z(0), yet the
    mean of the estimator is 0. *)
Definition zz00 : St := ket (seq 0 2) [false; false].
Theorem C16_little_refuted : exists cs, shadow_circuits asc 2 [[2; 0]%nat] = Some cs /\ fits [(PZ, 0%nat)] [2; 0]%nat = true /\ normalised 2 zz00 /\
  forall rho, expval 2 zz00 (den rho (BPrim PZ 0)) = RtoC 1 /\
    expect 2 (map (fun c => shot_prob true 2 (den rho c) zz00) cs) (estimator_of asc 1 1 [[2; 0]%nat] (BPrim PZ 0) 0) = 0.
Proof.
  eexists. split; [reflexivity|]. split; [reflexivity|]. split; [apply normalised_ket; reflexivity|]. intros rho. split.
  - unfold expval, zz00. rewrite inner_ket by reflexivity. unfold amps, ket. cbn. unfold gate1, gate, csum. cbn. ring.
  - assert (S2 : (/ sqrt 2 * / sqrt 2 = / 2)%R) by (rewrite <- Rinv_mult; rewrite sqrt_sqrt by lra; reflexivity).
    rewrite (expect_ext 2 _ _ (fun bs => spin (nth 0 (nth 0 bs []) false))).
    + cbn [map expect bits app rsum nth spin]. unfold shot_prob, reversed_state, zz00, ket. cbn. unfold seqop, gate1, gate, csum, idop. cbn. lra.
    + intros bs L T. destruct bs as [|b [|b' bs]]; try discriminate. rewrite (estimator_value asc 2 1 1 [[2; 0]%nat] [b] (BPrim PZ 0) [(PZ, 0%nat)] 0).
      * unfold value. cbn. unfold sign, spin. cbn. destruct (nth 0 b false); lra.
      * split; [repeat constructor; intros []|]. intros p q [E|[]]. injection E as <- <-. split; [auto|lia].
      * right. exists PZ, 0%nat. split; [reflexivity|]. split; [reflexivity|discriminate].
      * lia.
      * intros r [<-|[]]. split; [reflexivity|]. intros i [<-|[<-|[]]]; lia.
      * exact T.
      * reflexivity.
Qed.

(** * Examples *)
Lemma xyzi_xz : xyzi 3 [(PX, 0%nat); (PI_, 1%nat); (PZ, 2%nat)].
Proof. split; [repeat constructor; cbn; intuition discriminate|]. intros p q [E|[E|[E|[]]]]; injection E as <- <-; (split; [auto|lia]). Qed.
Example C16_string_ex : string_observable asc (product [(PX, 0%nat); (PI_, 1%nat); (PZ, 2%nat)]) [(PX, 0%nat); (PI_, 1%nat); (PZ, 2%nat)] /\ weight [(PX, 0%nat); (PI_, 1%nat); (PZ, 2%nat)] = 2%nat.
Proof. split; [left; split; reflexivity|reflexivity]. Qed.
(** |000>, the rows (X, X, Z), (Y, Z, Z), (Z, Z, X), (Z, Z, Z) in two groups: Z(2) is measured in both. *)
Definition ids3 : list (list nat) := [[0; 0; 2]; [1; 2; 2]; [2; 2; 0]; [2; 2; 2]]%nat.
Definition zero3 : St := ket (seq 0 3) [false; false; false].
Lemma ids3_ok : rows_ok 3 ids3.
Proof. intros r [<-|[<-|[<-|[<-|[]]]]]; (split; [reflexivity|]); intros i I; cbn in I; intuition lia. Qed.
Example C16_unbiased_ex : forall rho k, (k < 2)%nat -> exists cs, shadow_circuits asc 3 ids3 = Some cs /\
  RtoC (expect 3 (map (fun c => shot_prob false 3 (den rho c) zero3) cs) (estimator_of asc 4 2 ids3 (BPrim PZ 2) k)) = RtoC 1.
Proof.
  intros rho k Hk. destruct (C16_unbiased asc 3 rho zero3 4 2 k ids3 (BPrim PZ 2) [(PZ, 2%nat)] asc_order ltac:(lia) ltac:(apply normalised_ket; reflexivity)) as (cs & E & M).
  - split; [repeat constructor; intros []|]. intros p q [F|[]]. injection F as <- <-. split; [auto|lia].
  - right. exists PZ, 2%nat. split; [reflexivity|]. split; [reflexivity|discriminate].
  - exact ids3_ok.
  - exact Hk.
  - exists cs. split; [exact E|]. rewrite M. assert (G : existsb (fits [(PZ, 2%nat)]) (group 4 2 k ids3) = true) by (destruct k as [|[|k]]; [reflexivity|reflexivity|lia]). rewrite G.
    unfold expval, zero3. rewrite inner_ket by reflexivity. unfold amps, ket. cbn. unfold gate1, gate, csum. cbn. ring.
Qed.
Example C16_possible_ex : exists cs, shadow_circuits asc 3 [[2; 2; 2]]%nat = Some cs /\ forall rho, possible 3 rho zero3 cs [[false; false; false]].
Proof.
  eexists. split; [reflexivity|]. intros rho. constructor; [|constructor]. split; [reflexivity|]. unfold shot_prob, zero3, ket. cbn. lra.
Qed.
Example C16_exact_ex : forall rho, exists cs v, shadow_circuits asc 3 [[2; 2; 2]]%nat = Some cs /\
  estimate asc rho 1 1 [[2; 2; 2]]%nat [[false; false; false]] (BAdd [BScale (BPrim PZ 2) (ECst (RtoC 3)); BPrim PI_ 0; product [(PZ, 0%nat); (PZ, 1%nat)]]) = Some v /\ v = 5.
Proof.
  intros rho. destruct C16_possible_ex as (cs & E & P). exists cs.
  destruct (C16_exact asc 3 rho zero3 1 1 [[2; 2; 2]]%nat cs [[false; false; false]] (BAdd [BScale (BPrim PZ 2) (ECst (RtoC 3)); BPrim PI_ 0; product [(PZ, 0%nat); (PZ, 1%nat)]]) asc_order ltac:(lia) ltac:(apply normalised_ket; reflexivity) ltac:(lia)) as (v & Ev & V).
  - intros r [<-|[]]. split; [reflexivity|]. intros i I; cbn in I; intuition lia.
  - exact E.
  - apply P.
  - intros tc I. cbn in I. destruct I as [<-|[<-|[<-|[]]]]; (split; [cbn; unfold ang; cbn; apply Ceq; simpl; ring|]).
    + right. exists [(PZ, 2%nat)], 1. split; [split; [repeat constructor; intros []|]; intros p q [F|[]]; injection F as <- <-; split; [auto|lia]|]. split; [right; exists PZ, 2%nat; split; [reflexivity|]; split; [reflexivity|discriminate]|]. split; [auto|]. split.
      * unfold expval, zero3. rewrite inner_ket by reflexivity. unfold amps, ket. cbn. unfold gate1, gate, csum. cbn. ring.
      * intros k Hk. replace k with 0%nat by lia. reflexivity.
    + left. exists 0%nat. reflexivity.
    + right. exists [(PZ, 0%nat); (PZ, 1%nat)], 1. split; [split; [repeat constructor; cbn; intuition discriminate|]; intros p q [F|[F|[]]]; injection F as <- <-; split; auto; lia|]. split; [left; split; reflexivity|]. split; [auto|]. split.
      * unfold expval, zero3. rewrite inner_ket by reflexivity. unfold amps, ket. cbn. unfold seqop, gate1, gate, csum, idop. cbn. ring.
      * intros k Hk. replace k with 0%nat by lia. reflexivity.
  - exists v. split; [exact E|]. split; [exact Ev|]. apply RtoC_inj. rewrite V. unfold expval, zero3. rewrite inner_ket by reflexivity. unfold amps, ket. cbn. unfold addop, zeroop, scaleop, seqop, gate1, gate, csum, idop. cbn. apply Ceq; simpl; lra.
Qed.

Print Assumptions C16_estimators.
Print Assumptions C16_unbiased.
Print Assumptions C16_random.
Print Assumptions C16_eigenstate.
Print Assumptions C16_median.
Print Assumptions C16_exact.
Print Assumptions C16_weight.
Print Assumptions C16_remainder.
Print Assumptions C16_too_few.
Print Assumptions C16_one_qubit.
Print Assumptions C16_ascending.
Print Assumptions C16_order_refuted.
Print Assumptions C16_little_refuted.
