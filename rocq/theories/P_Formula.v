(** C92: the formula printed for an observable. *)
From Coq Require Import Ascii String Reals List Arith Bool ZArith Lia Lra DecimalString FunctionalExtensionality.
From Coquelicot Require Import Coquelicot.
From Coq Require Import List.
From Verif Require Import S_Ops M_Block S_Den M_Tensor M_Transpile M_Tags P_Tags M_Formula.
Import ListNotations.
Open Scope string_scope.
Open Scope nat_scope.

(** * Specification: how a formula is read *)
(** A numeral means the number it writes; any other text of a coefficient stands for an expression that is printed like this. *)
Section Reading.
  Variable rounded : expr -> string.
  Variable is_real : expr -> bool.
  Variable support : block -> list nat.
  Variable other_title : tblock -> string.
  Variable rho : env.
  Definition coefficient (c : string) (v : C) : Prop :=
    match py_number c with
    | Some (m, k) => v = RtoC (IZR m / 10 ^ k)
    | None => exists e, c = format_parameter rounded is_real e /\ v = ev rho e
    end.
  (** Products bind more tightly than sums, coefficients more tightly than products: level 0 sums, 1 products, 2 factors, 3 atoms. *)
  Inductive reads : nat -> string -> Op -> Prop :=
  | reads_leaf a t : reads 3 (leaf_title other_title a t) (den rho a)
  | reads_ctrl par cs b t : reads 3 (other_title (TCtrl par cs b t)) (den rho (erase (TCtrl par cs b t)))
  | reads_paren s A : reads 0 s A -> reads 3 ("(" ++ s ++ ")") A
  | reads_atom s A : reads 3 s A -> reads 2 s A
  | reads_times c v s A : coefficient c v -> reads 2 s A -> reads 2 (c ++ " * " ++ s) (scaleop v A)
  | reads_product l : l <> [] -> Forall (fun p => reads 2 (fst p) (snd p)) l ->
      reads 1 (String.concat " @ " (map fst l)) (fold_right seqop idop (map snd l))
  | reads_sum l : l <> [] -> Forall (fun p => reads 1 (fst p) (snd p)) l ->
      reads 0 (String.concat " + " (map fst l)) (fold_right addop zeroop (map snd l)).
End Reading.

(** * Texts *)
Definition chars := list_ascii_of_string.
Lemma chars_cons c s : chars (String c s) = c :: chars s. Proof. reflexivity. Qed.
Lemma app_cons c a b : String c a ++ b = String c (a ++ b). Proof. reflexivity. Qed.
Lemma app_empty_r s : s ++ "" = s.
Proof. induction s as [|c s IH]; [reflexivity|]. rewrite app_cons, IH. reflexivity. Qed.
Lemma app_assoc_s a b c : (a ++ b) ++ c = a ++ (b ++ c).
Proof. induction a as [|x a IH]; [reflexivity|]. rewrite !app_cons, IH. reflexivity. Qed.
Lemma prefix_sep w : forall a c b, ~ In c (chars w) -> prefix w (a ++ String c b) = prefix w a.
Proof.
  induction w as [|x w IH]; intros a c b H; [destruct a; reflexivity|].
  destruct a as [|y a]; cbn [append prefix].
  - destruct (ascii_dec x c) as [->|N]; [|reflexivity]. exfalso. apply H. left. reflexivity.
  - destruct (ascii_dec x y) as [->|N]; [|reflexivity]. apply IH. intros I. apply H. right. exact I.
Qed.
Lemma contains_cons w c s : contains w (String c s) = prefix w (String c s) || contains w s. Proof. reflexivity. Qed.
Lemma contains_sep w a c b : w <> "" -> ~ In c (chars w) -> contains w (a ++ String c b) = contains w a || contains w b.
Proof.
  intros W H. induction a as [|y a IH].
  - change ("" ++ String c b) with (String c b). rewrite contains_cons. assert (P : prefix w (String c b) = false).
    { destruct w as [|x w]; [contradiction|]. cbn [prefix]. destruct (ascii_dec x c) as [->|N]; [|reflexivity]. exfalso. apply H. left. reflexivity. }
    rewrite P. destruct w; [contradiction|]. reflexivity.
  - rewrite app_cons, !contains_cons, IH, <- app_cons, prefix_sep by exact H. apply orb_assoc.
Qed.
Lemma contains_avoid w s r : w <> "" -> (forall c, In c (chars s) -> ~ In c (chars w)) -> contains w (s ++ r) = contains w r.
Proof.
  intros W. induction s as [|c s IH]; intros H; [reflexivity|]. rewrite app_cons.
  change (String c (s ++ r)) with ("" ++ String c (s ++ r)). rewrite contains_sep; [|exact W|apply H; left; reflexivity].
  rewrite IH by (intros d I; apply H; right; exact I). destruct w; [contradiction|]. reflexivity.
Qed.
Lemma contains_start w s : contains w (w ++ s) = true.
Proof.
  assert (P : prefix w (w ++ s) = true). { induction w as [|c w IH]; [destruct s; reflexivity|]. cbn [append prefix]. destruct (ascii_dec c c); [exact IH|contradiction]. }
  destruct (w ++ s) eqn:E; cbn [contains]; rewrite P; reflexivity.
Qed.
Lemma contains_app_r w a b : contains w b = true -> contains w (a ++ b) = true.
Proof. intros H. induction a as [|c a IH]; [exact H|]. rewrite app_cons, contains_cons, IH. apply orb_true_r. Qed.

(** The words the printer looks for, in a text that is printed as it is. *)
Definition no_word (s : string) : Prop := contains "KronBlock" s = false /\ contains "mul" s = false.
Definition starts (s : string) : Prop := match s with "" => False | String c _ => c <> " "%char end.
Definition plain_text (s : string) : Prop := starts s /\ no_word s.
(** a coefficient's text between the brackets *)
Definition coefficient_text (s : string) : Prop := plain_text s /\ contains "AddBlock" s = false /\ ~ In "]"%char (chars s).

Ltac notin := intros HH; cbn in HH; repeat (destruct HH as [HH|HH]; [discriminate|]); exact HH.
Lemma no_word_app a c b : ~ In c (chars "KronBlock") -> ~ In c (chars "mul") -> no_word a -> no_word b -> no_word (a ++ String c b).
Proof. intros H1 H2 [A1 A2] [B1 B2]. split; rewrite contains_sep by (try discriminate; assumption); rewrite ?A1, ?A2, ?B1, ?B2; reflexivity. Qed.
Lemma no_word_cons c b : ~ In c (chars "KronBlock") -> ~ In c (chars "mul") -> no_word b -> no_word (String c b).
Proof. intros H1 H2 H. change (String c b) with ("" ++ String c b). apply no_word_app; try assumption. split; reflexivity. Qed.
Lemma concat_cons sep s l : l <> [] -> String.concat sep (s :: l) = s ++ sep ++ String.concat sep l.
Proof. destruct l; [contradiction|reflexivity]. Qed.
Lemma plain_concat d l : ~ In d (chars "KronBlock") -> ~ In d (chars "mul") -> l <> [] -> Forall plain_text l ->
  plain_text (String.concat (String " " (String d " ")) l).
Proof.
  intros D1 D2. induction l as [|s l IH]; [contradiction|]. intros _ H. inversion H as [|? ? [Hs Hw] Hl]; subst. destruct l as [|t l]; [split; assumption|].
  rewrite concat_cons by discriminate. specialize (IH ltac:(discriminate) Hl). destruct IH as [_ Iw]. split.
  - destruct s; [contradiction|exact Hs].
  - rewrite !app_cons. apply no_word_app; [notin|notin|exact Hw|]. apply no_word_cons; [exact D1|exact D2|]. apply no_word_cons; [notin|notin|exact Iw].
Qed.
Lemma strip_plain s : starts s -> strip s = s.
Proof.
  unfold strip. intros H. destruct s as [|c s]; [contradiction|]. cbn [starts] in H. destruct (existsb _ _) eqn:E; [|reflexivity]. exfalso.
  apply existsb_exists in E as (w & I & E). apply String.eqb_eq in E. cbn in I. destruct I as [<-|[<-|[<-|[]]]]; cbn in E; injection E as E _; congruence.
Qed.
Lemma upto_spec s r : ~ In "]"%char (chars s) -> upto (s ++ String "]" r) = Some s.
Proof.
  induction s as [|c s IH]; intros H; [reflexivity|]. rewrite app_cons.
  assert (N : c <> "]"%char) by (intros ->; apply H; left; reflexivity).
  assert (U : forall q, upto (String c q) = option_map (String c) (upto q)).
  { intros q. cbn [upto]. destruct c as [[] [] [] [] [] [] [] []]; try reflexivity. contradiction N; reflexivity. }
  rewrite U, IH; [reflexivity|]. intros I. apply H. right. exact I.
Qed.
Lemma blanks_starts s : starts s -> blanks s = s.
Proof. destruct s as [|c s]; [reflexivity|]. intros H. cbn [starts] in H. cbn [blanks]. destruct c as [[] [] [] [] [] [] [] []]; try reflexivity. contradiction H; reflexivity. Qed.
Lemma mul_text_label c : coefficient_text c -> mul_text ("\[mul: " ++ c ++ "] ") = Some c.
Proof.
  intros [[Hs _] [_ Hb]]. destruct c as [|x c]; [contradiction|].
  change ("\[mul: " ++ String x c ++ "] ") with (String "\" ("[mul: " ++ String x c ++ "] ")). cbn [mul_text].
  replace (prefix "[mul:" (String "\" ("[mul: " ++ String x c ++ "] "))) with false by reflexivity.
  cbn [append mul_text]. replace (prefix "[mul:" (String "[" _)) with true by reflexivity.
  match goal with |- context [substring 5 ?n ?s] => replace (substring 5 n s) with (" " ++ String x c ++ "] ") end.
  2: { cbn [substring append String.length Nat.sub]. generalize (x :: chars c). intros _.
       set (q := String x (c ++ "] ")). change (String " " q = substring 0 (String.length (String " " q)) (String " " q)).
       generalize (String " " q). induction s as [|y s IH]; [reflexivity|]. cbn [String.length substring]. rewrite <- IH. reflexivity. }
  change (blanks (" " ++ String x c ++ "] ")) with (blanks (String x c ++ "] ")). rewrite blanks_starts by exact Hs. rewrite app_cons.
  change (c ++ "] ") with (c ++ String "]" " "). rewrite upto_spec; [reflexivity|]. intros I. apply Hb. right. exact I.
Qed.
Lemma digits_avoid w qs c : (forall d, In d (chars ",0123456789") -> ~ In d (chars w)) -> In c (chars (String.concat "," (map str_nat qs))) -> ~ In c (chars w).
Proof.
  intros H. assert (D : forall u d, In d (chars (NilEmpty.string_of_uint u)) -> In d (chars ",0123456789")).
  { induction u; intros d I; cbn in I; [contradiction|..]; (destruct I as [<-|I]; [cbn; tauto|apply IHu; exact I]). }
  assert (S : forall n d, In d (chars (str_nat n)) -> In d (chars ",0123456789")).
  { intros n d. unfold str_nat, NilZero.string_of_uint. destruct (Nat.to_uint n) eqn:E; try (rewrite <- E; apply D; fail); try apply D. cbn. tauto. }
  assert (A : forall a b d, In d (chars (a ++ b)) -> In d (chars a) \/ In d (chars b)).
  { induction a as [|y a IH]; intros b d I; [right; exact I|]. cbn in I. destruct I as [->|I]; [left; left; reflexivity|]. apply IH in I as [I|I]; [left; right; exact I|right; exact I]. }
  intros I. apply H. revert I. induction qs as [|q qs IH]; [intros []|]. cbn [map]. destruct qs as [|q' qs]; [apply S|].
  cbn [map] in *. rewrite concat_cons by discriminate. intros I. apply A in I as [I|I]; [eapply S; exact I|]. apply A in I as [I|I]; [cbn in I; cbn; tauto|apply IH; exact I].
Qed.
Lemma titled_word w name qs t : w <> "" -> (forall d, In d (chars ",0123456789()") -> ~ In d (chars w)) ->
  contains w (titled name qs t) = contains w name || contains w (tag_text t).
Proof.
  intros W H. unfold titled. set (B := String.concat "," (map str_nat qs)).
  change (contains w (name ++ String "(" (B ++ String ")" (tag_text t))) = contains w name || contains w (tag_text t)).
  rewrite contains_sep; [|exact W|apply H; cbn; tauto]. f_equal.
  rewrite contains_avoid; [|exact W|intros c I; eapply digits_avoid; [|exact I]; intros d J; apply H; cbn in J; cbn; tauto].
  change (String ")" (tag_text t)) with ("" ++ String ")" (tag_text t)). rewrite contains_sep; [|exact W|apply H; cbn; tauto].
  destruct w; [contradiction|reflexivity].
Qed.

(** * The formula of an observable *)
Section Formulas.
  Variable rounded : expr -> string.
  Variable is_real : expr -> bool.
  Variable support : block -> list nat.
  Variable other_title : tblock -> string.
  Notation fmt := (format_parameter rounded is_real).
  Notation title := (leaf_title other_title).
  Notation formula := (formula rounded is_real support other_title).

  (** Observables whose formula can be printed and read: sums and tensor products, not empty, of operations whose titles do not contain
      the words the printer looks for, with coefficients that are printed without rounding and are not zero. *)
  Inductive printable (rho : env) : tblock -> Prop :=
  | printable_leaf a t : plain_text (title a t) -> contains "AddBlock" (title a t) = false -> printable rho (TLeaf a t)
  | printable_ctrl par cs b t : plain_text (other_title (TCtrl par cs b t)) -> contains "AddBlock" (other_title (TCtrl par cs b t)) = false ->
      printable rho (TCtrl par cs b t)
  | printable_scale b e t : coefficient_text (fmt e) -> coefficient rounded is_real rho (fmt e) (ev rho e) -> ev rho e <> RtoC 0 ->
      printable rho b -> printable rho (TScale b e t)
  | printable_comp k bs t : k <> KChain -> bs <> [] -> contains "AddBlock" (tag_text t) = false -> Forall (printable rho) bs ->
      printable rho (TComp k bs t).

  Lemma osequence_some {A B} (f : A -> option B) (P : B -> Prop) l : Forall (fun x => exists y, f x = Some y /\ P y) l ->
    exists ys, osequence (map f l) = Some ys /\ Forall P ys /\ Forall2 (fun x y => f x = Some y) l ys.
  Proof.
    induction 1 as [|x l (y & E & H) _ (ys & IE & IP & IF)]; [exists []; repeat split; constructor|].
    exists (y :: ys). cbn [map osequence]. rewrite E, IE. repeat split; constructor; assumption.
  Qed.
  Lemma nonzero_number rho c v m k : coefficient rounded is_real rho c v -> py_number c = Some (m, k) -> v <> RtoC 0 -> is_zero (m, k) = false.
  Proof.
    intros H E N. unfold coefficient in H. rewrite E in H. unfold is_zero. cbn [fst]. apply Z.eqb_neq. intros ->. apply N. rewrite H. f_equal. unfold Rdiv. ring.
  Qed.
  Lemma one_number rho c v m k : coefficient rounded is_real rho c v -> py_number c = Some (m, k) -> is_one (m, k) = true -> v = RtoC 1.
  Proof.
    intros H E N. unfold coefficient in H. rewrite E in H. unfold is_one in N. cbn [fst snd] in N. apply Z.eqb_eq in N. rewrite H. f_equal. subst m.
    rewrite <- pow_IZR. apply Rinv_r. apply pow_nonzero. lra.
  Qed.

  Lemma tblock_ind2 (P : tblock -> Prop) : (forall a t, P (TLeaf a t)) -> (forall par cs b t, P (TCtrl par cs b t)) -> (forall b e t, P b -> P (TScale b e t)) ->
    (forall k bs t, Forall P bs -> P (TComp k bs t)) -> forall b, P b.
  Proof. intros H1 H2 H3 H4. induction b using tblock_ind'; auto. Qed.

  Lemma leaf_expression l : plain_text l -> contains "AddBlock" l = false -> expression (RNode l []) = Some l.
  Proof.
    intros [S [W1 W2]] H. cbn [expression map]. rewrite H. cbn [obind]. rewrite W1. cbn [obind]. rewrite W2. cbn [obind List.length Nat.ltb Nat.leb].
    rewrite strip_plain by exact S. reflexivity.
  Qed.
  Lemma label_word w c : w <> "" -> (forall d, In d (chars "\[]: ") -> ~ In d (chars w)) -> contains w c = false -> contains w ("\[mul: " ++ c ++ "] ") = contains w "mul".
  Proof.
    intros W H E. change ("\[mul: " ++ c ++ "] ") with ("\[" ++ ("mul" ++ String ":" (" " ++ (c ++ String "]" " ")))).
    rewrite contains_avoid; [|exact W|intros d I; apply H; cbn in I; cbn; tauto]. rewrite contains_sep; [|exact W|apply H; cbn; tauto].
    rewrite contains_avoid; [|exact W|intros d I; apply H; cbn in I; cbn; tauto]. rewrite contains_sep; [|exact W|apply H; cbn; tauto]. rewrite E.
    replace (contains w " ") with false; [apply orb_false_r|]. symmetry. change " " with (" " ++ ""). rewrite contains_avoid; [|exact W|intros d I; apply H; cbn in I; cbn; tauto].
    destruct w; [contradiction|reflexivity].
  Qed.
  Lemma comp_expression (d : ascii) lab ts ss : ts <> [] -> map expression ts = map Some ss -> Forall plain_text ss -> ~ In d (chars "KronBlock") -> ~ In d (chars "mul") ->
    (d = "+"%char /\ contains "AddBlock" lab = true \/ d = "@"%char /\ contains "AddBlock" lab = false /\ contains "KronBlock" lab = true) ->
    let j := String.concat (String " " (String d " ")) ss in
    expression (RNode lab ts) = Some (if 1 <? List.length ss then "(" ++ j ++ ")" else j) /\ plain_text (if 1 <? List.length ss then "(" ++ j ++ ")" else j).
  Proof.
    intros N E P D1 D2 L j.
    assert (Q : osequence (map expression ts) = Some ss). { rewrite E. clear. induction ss as [|x ss IH]; [reflexivity|]. cbn [map osequence]. rewrite IH. reflexivity. }
    assert (Ln : List.length ts = List.length ss). { rewrite <- (map_length expression ts), E, map_length. reflexivity. }
    assert (NS : ss <> []). { intros ->. destruct ts; [contradiction|discriminate]. }
    assert (PJ : plain_text j) by (apply plain_concat; assumption). destruct PJ as [S [W1 W2]].
    split.
    - cbn [expression]. rewrite Q. destruct L as [[-> L]|[-> [L1 L2]]].
      + rewrite L. cbn [option_map obind]. change " + " with (String " " (String "+" " ")). fold j. rewrite W1. cbn [obind]. rewrite W2. cbn [obind].
        rewrite strip_plain by exact S. rewrite Ln. reflexivity.
      + rewrite L1. cbn [option_map obind]. rewrite L2. cbn [option_map obind]. change " @ " with (String " " (String "@" " ")). fold j. rewrite W2. cbn [obind].
        rewrite strip_plain by exact S. rewrite Ln. reflexivity.
    - destruct (1 <? List.length ss); [|repeat split; assumption]. split; [discriminate|].
      change ("(" ++ j ++ ")") with (String "(" (j ++ String ")" "")). apply no_word_cons; [notin|notin|]. apply no_word_app; [notin|notin|split; assumption|split; reflexivity].
  Qed.
  Lemma addop_zero A : addop A zeroop = A.
  Proof. apply functional_extensionality; intros psi. apply functional_extensionality; intros x. unfold addop, zeroop. apply Cplus_0_r. Qed.
  Lemma scaleop_one A : scaleop (RtoC 1) A = A.
  Proof. apply functional_extensionality; intros psi. apply functional_extensionality; intros x. unfold scaleop. apply Cmult_1_l. Qed.
  Lemma fold_map {A B C} (f : A -> B) (h : B -> C -> C) z l : fold_right h z (map f l) = fold_right (fun b k => h (f b) k) z l.
  Proof. induction l as [|x l IH]; [reflexivity|]. cbn [map fold_right]. rewrite IH. reflexivity. Qed.
  Lemma reads_one rho s A : reads rounded is_real other_title rho 2 s A -> reads rounded is_real other_title rho 1 s A.
  Proof. intros H. apply (reads_product rounded is_real other_title rho [(s, A)]); [discriminate|]. constructor; [exact H|constructor]. Qed.
  Lemma reads_single rho s A : reads rounded is_real other_title rho 1 s A -> reads rounded is_real other_title rho 0 s A.
  Proof.
    intros H. rewrite <- (addop_zero A). apply (reads_sum rounded is_real other_title rho [(s, A)]); [discriminate|]. constructor; [exact H|constructor].
  Qed.

  (** What is printed for an observable, read as a formula, is the observable. *)
  Lemma reads_formula rho b : printable rho b -> exists s, formula b = Some s /\ plain_text s /\ reads rounded is_real other_title rho 2 s (den rho (erase b)).
  Proof.
    unfold M_Formula.formula. induction b as [a t|par cs b t|b e t IH|k bs t IH] using tblock_ind2; intros H;
      inversion H as [a' t' H1 H2|par' cs' b' t' H1 H2|b' e' t' H1 H2 H3 H4|k' bs' t' H1 H2 H3 H4]; subst; clear H.
    - exists (title a t). cbn [rich]. rewrite leaf_expression by assumption. repeat split; try apply H1. apply reads_atom, reads_leaf.
    - exists (other_title (TCtrl par cs b t)). cbn [rich]. rewrite leaf_expression by assumption. repeat split; try apply H1. apply reads_atom, reads_ctrl.
    - destruct (IH H4) as (s & E & P & R). pose proof H1 as [[S [W1 W2]] [W3 _]]. cbn [rich expression map].
      rewrite label_word by (try discriminate; try exact W3; intros d I; cbn in I; repeat (destruct I as [<-|I]; [notin|]); contradiction). replace (contains "AddBlock" "mul") with false by reflexivity. cbn [obind].
      rewrite label_word by (try discriminate; try exact W1; intros d I; cbn in I; repeat (destruct I as [<-|I]; [notin|]); contradiction). replace (contains "KronBlock" "mul") with false by reflexivity. cbn [obind].
      rewrite label_word by (try discriminate; try exact W2; intros d I; cbn in I; repeat (destruct I as [<-|I]; [notin|]); contradiction). replace (contains "mul" "mul") with true by reflexivity.
      rewrite mul_text_label by exact H1. cbn [obind List.length Nat.ltb Nat.leb]. rewrite E. cbn [option_map].
      assert (PP : plain_text (fmt e ++ " * " ++ s)).
      { split; [destruct (fmt e); [contradiction|exact S]|]. change (fmt e ++ " * " ++ s) with (fmt e ++ String " " (String "*" (String " " s))).
        apply no_word_app; [notin|notin|split; assumption|]. apply no_word_cons; [notin|notin|]. apply no_word_cons; [notin|notin|apply P]. }
      assert (G : exists s', Some (strip (fmt e ++ " * " ++ s)) = Some s' /\ plain_text s' /\ reads rounded is_real other_title rho 2 s' (den rho (erase (TScale b e t)))).
      { rewrite strip_plain by apply PP. eexists. split; [reflexivity|]. split; [exact PP|]. cbn [erase den]. apply reads_times; assumption. }
      destruct (py_number (fmt e)) as [[m k]|] eqn:EN; [|exact G].
      rewrite (nonzero_number _ _ _ _ _ H2 EN H3). destruct (is_one (m, k)) eqn:E1; [|exact G].
      cbn [obind]. rewrite strip_plain by apply P. exists s. split; [reflexivity|]. split; [exact P|]. cbn [erase den]. rewrite (one_number _ _ _ _ _ H2 EN E1), scaleop_one. exact R.
    - assert (A : exists l : list (string * Op), map expression (map (rich rounded is_real support other_title) bs) = map Some (map fst l) /\ map snd l = map (den rho) (map erase bs) /\
        Forall plain_text (map fst l) /\ Forall (fun p => reads rounded is_real other_title rho 2 (fst p) (snd p)) l).
      { clear H2. induction IH as [|x bs Hx _ IHbs]; [exists []; repeat split; constructor|]. inversion H4 as [|? ? Px Pbs]; subst. destruct (Hx Px) as (s & E & P & R). destruct (IHbs Pbs) as (l & I1 & I2 & I3 & I4).
        exists ((s, den rho (erase x)) :: l). cbn [map fst snd]. rewrite E, I1, I2. repeat split; constructor; assumption. }
      destruct A as (l & A1 & A2 & A3 & A4).
      assert (NL : l <> []). { intros ->. destruct bs; [contradiction|discriminate]. }
      assert (NT : map (rich rounded is_real support other_title) bs <> []) by (destruct bs; [contradiction|discriminate]).
      cbn [rich]. destruct k; [contradiction| |].
      + destruct (comp_expression "@" (titled (kind_name KKron) (support (erase (TComp KKron bs t))) t) _ _ NT A1 A3) as [E P]; [notin|notin| |].
        { right. split; [reflexivity|]. split; [rewrite titled_word by (try discriminate; intros d I; cbn in I; repeat (destruct I as [<-|I]; [notin|]); contradiction); rewrite H3; reflexivity|]. apply contains_start. }
        eexists. split; [exact E|]. split; [exact P|]. cbn [erase comp den]. rewrite <- (fold_map (den rho) seqop), <- A2. rewrite map_length.
        destruct l as [|p [|q l]]; [contradiction|inversion A4; assumption|]. cbn [List.length Nat.ltb Nat.leb].
        apply reads_atom, reads_paren, reads_single, (reads_product rounded is_real other_title rho (p :: q :: l)); [discriminate|exact A4].
      + destruct (comp_expression "+" (titled (kind_name KAdd) (support (erase (TComp KAdd bs t))) t) _ _ NT A1 A3) as [E P]; [notin|notin|left; split; [reflexivity|apply contains_start]|].
        eexists. split; [exact E|]. split; [exact P|]. cbn [erase comp den]. rewrite <- (fold_map (den rho) addop), <- A2. rewrite map_length.
        destruct l as [|p [|q l]]; [contradiction|cbn [map fold_right]; rewrite addop_zero; inversion A4; assumption|]. cbn [List.length Nat.ltb Nat.leb].
        apply reads_atom, reads_paren, (reads_sum rounded is_real other_title rho (p :: q :: l)); [discriminate|]. revert A4. apply Forall_impl. intros x. apply reads_one.
  Qed.
  Theorem C92_reads : forall rho b, printable rho b -> exists s, formula b = Some s /\ reads rounded is_real other_title rho 2 s (den rho (erase b)).
  Proof. intros rho b H. destruct (reads_formula rho b H) as (s & E & _ & R). exists s. split; assumption. Qed.

  (** Parameter-free one-qubit operations without a tag, and coefficients that are names or numerals, meet the conditions. *)
  Theorem C92_operations : forall rho p q, printable rho (TLeaf (BPrim p q) None).
  Proof.
    intros rho p q. apply printable_leaf; cbn [leaf_title].
    - split; [destruct p; try destruct state; discriminate|]. split; rewrite titled_word by (try discriminate; intros d I; cbn in I; repeat (destruct I as [<-|I]; [notin|]); contradiction); destruct p; try destruct state; reflexivity.
    - rewrite titled_word by (try discriminate; intros d I; cbn in I; repeat (destruct I as [<-|I]; [notin|]); contradiction); destruct p; try destruct state; reflexivity.
  Qed.
  Theorem C92_symbols : forall rho b e t, coefficient_text (fmt e) -> py_number (fmt e) = None -> ev rho e <> RtoC 0 -> printable rho b -> printable rho (TScale b e t).
  Proof. intros rho b e t H N Z P. apply printable_scale; try assumption. unfold coefficient. rewrite N. exists e. split; reflexivity. Qed.
End Formulas.

(** The example of the tests (tests/test_str_utils.py:17-20). *)
Example C92_reads_example : let z q := TLeaf (BPrim PZ q) None in
  let b := TComp KAdd [TScale (TComp KAdd [z 0; z 1] None) (ECst (RtoC 2)) None; TComp KKron [z 0; z 1] None] None in
  formula (fun _ => "2.000") (fun _ => true) (fun _ => [0; 1]) (fun _ => "") b = Some "(2.000 * (Z(0) + Z(1)) + (Z(0) @ Z(1)))" /\
  forall rho, printable (fun _ => "2.000") (fun _ => true) (fun _ => "") rho b.
Proof.
  split; [vm_compute; reflexivity|]. intros rho. apply printable_comp; try discriminate; [reflexivity|]. constructor; [|constructor; [|constructor]].
  - apply printable_scale.
    + repeat split; try reflexivity; [discriminate|notin].
    + unfold coefficient. replace (py_number (format_parameter (fun _ => "2.000") (fun _ => true) (ECst (RtoC 2)))) with (Some (2000%Z, 3)) by reflexivity. cbn [ev]. f_equal. cbn [pow]. lra.
    + cbn [ev]. intros E. apply (f_equal fst) in E. cbn in E. lra.
    + apply printable_comp; try discriminate; [reflexivity|]. constructor; [apply C92_operations|constructor; [apply C92_operations|constructor]].
  - apply printable_comp; try discriminate; [reflexivity|]. constructor; [apply C92_operations|constructor; [apply C92_operations|constructor]].
Qed.

(** * What is not printed *)
Lemma gate1_at q m psi x : gate1 q m psi x = (m (x q) false * psi (upd x q false) + m (x q) true * psi (upd x q true))%C.
Proof. unfold gate1, gate. cbn [length bits map app csum upds of_mat2]. ring. Qed.
(** A parameter whose name contains "mul", as part of a sum: printing the observable ends in an IndexError, although by itself the part is printed. *)
Theorem C92_name_refuted : forall rounded is_real support other, (forall s, rounded (EVar s) = s /\ is_real (EVar s) = false) ->
  let part := TScale (TLeaf (BPrim PX 0) None) (EVar "multiplier") None in
  formula rounded is_real support other part = Some "multiplier * X(0)" /\
  formula rounded is_real support other (TComp KAdd [part; TLeaf (BPrim PZ 1) None] None) = None.
Proof.
  intros rounded is_real support other H part. destruct (H "multiplier") as [E1 E2].
  assert (F : format_parameter rounded is_real (EVar "multiplier") = "multiplier") by (unfold format_parameter; rewrite E1, E2; reflexivity).
  assert (P : formula rounded is_real support other part = Some "multiplier * X(0)"). { unfold formula, part. cbn [rich]. rewrite F. vm_compute. reflexivity. }
  split; [exact P|]. unfold formula, part. cbn [rich map]. rewrite F. cbn [expression map].
  replace (contains "AddBlock" (titled (kind_name KAdd) _ _)) with true by (symmetry; apply contains_start). vm_compute. reflexivity.
Qed.
(** An operation with a tag that contains "mul" is not printed either. *)
Theorem C92_tag_refuted : forall rounded is_real support other,
  formula rounded is_real support other (TLeaf (BPrim PZ 0) (Some "simulation")) = None /\
  formula rounded is_real support other (TLeaf (BPrim PZ 0) (Some "readout")) = Some "Z(0) \[tag: readout]".
Proof. intros. split; vm_compute; reflexivity. Qed.
(** A part with the coefficient 0 is left out of a product, so that the formula of an observable that is zero is that of another. *)
Theorem C92_zero_refuted : forall rounded is_real support other rho, rounded (ECst (RtoC 0)) = "0" ->
  let b := TComp KKron [TScale (TLeaf (BPrim PX 0) None) (ECst (RtoC 0)) None; TLeaf (BPrim PZ 1) None] None in
  formula rounded is_real support other b = Some "(Z(1))" /\ reads rounded is_real other rho 2 "(Z(1))" (den rho (BPrim PZ 1)) /\
  den rho (erase b) (fun _ => RtoC 1) (fun _ => false) = RtoC 0 /\ den rho (BPrim PZ 1) (fun _ => RtoC 1) (fun _ => false) = RtoC 1.
Proof.
  intros rounded is_real support other rho E b.
  assert (F : format_parameter rounded is_real (ECst (RtoC 0)) = "0") by (unfold format_parameter; rewrite E; destruct (is_real _); reflexivity).
  split; [|split; [|split]].
  - unfold formula, b. cbn [rich map]. rewrite F. cbn [expression map]. replace (contains "AddBlock" (titled _ _ _)) with false by (rewrite titled_word by (try discriminate; intros d I; cbn in I; repeat (destruct I as [<-|I]; [notin|]); contradiction); reflexivity).
    cbn [obind]. replace (contains "KronBlock" (titled (kind_name KKron) _ _)) with true by (symmetry; apply contains_start). vm_compute. reflexivity.
  - apply reads_atom, (reads_paren rounded is_real other rho "Z(1)"), reads_single, reads_one, reads_atom, (reads_leaf rounded is_real other rho (BPrim PZ 1) None).
  - cbn [b erase comp map den fold_right ev]. unfold seqop, scaleop, idop. rewrite gate1_at. ring.
  - cbn [den]. rewrite gate1_at. cbn [prim_mat mat2]. ring.
Qed.
(** In a sum the signs stay: the formula of X + 0 Y + Z is "(X +  + Z)". *)
Theorem C92_zero_sum_refuted : forall rounded is_real support other, rounded (ECst (RtoC 0)) = "0" ->
  formula rounded is_real support other (TComp KAdd [TLeaf (BPrim PX 0) None; TScale (TLeaf (BPrim PY 0) None) (ECst (RtoC 0)) None; TLeaf (BPrim PZ 0) None] None) =
  Some "(X(0) +  + Z(0))".
Proof.
  intros rounded is_real support other E.
  assert (F : format_parameter rounded is_real (ECst (RtoC 0)) = "0") by (unfold format_parameter; rewrite E; destruct (is_real _); reflexivity).
  unfold formula. cbn [rich map]. rewrite F. cbn [expression map]. replace (contains "AddBlock" (titled (kind_name KAdd) _ _)) with true by (symmetry; apply contains_start). vm_compute. reflexivity.
Qed.
(** Of a real coefficient five characters are printed: 1234567 Z has the formula of 12345 Z. *)
Theorem C92_large_refuted : forall rounded is_real support other rho, (forall z, rounded (ECst (RtoC (IZR z))) = str_int z /\ is_real (ECst (RtoC (IZR z))) = true) ->
  let b z := TScale (TLeaf (BPrim PZ 0) None) (ECst (RtoC (IZR z))) None in
  formula rounded is_real support other (b 1234567%Z) = Some "12345 * Z(0)" /\ formula rounded is_real support other (b 12345%Z) = Some "12345 * Z(0)" /\ den rho (erase (b 1234567%Z)) <> den rho (erase (b 12345%Z)).
Proof.
  intros rounded is_real support other rho H b.
  assert (F : forall z, format_parameter rounded is_real (ECst (RtoC (IZR z))) = if 5 <? String.length (str_int z) then substring 0 5 (str_int z) else str_int z).
  { intros z. destruct (H z) as [E1 E2]. unfold format_parameter. rewrite E1, E2. reflexivity. }
  split; [|split].
  - unfold formula, b. cbn [rich]. rewrite F. vm_compute. reflexivity.
  - unfold formula, b. cbn [rich]. rewrite F. vm_compute. reflexivity.
  - intros E. apply (f_equal (fun A : Op => A (fun _ => RtoC 1) (fun _ => false))) in E. cbn [b erase den ev] in E. unfold scaleop in E. rewrite gate1_at in E. cbn [prim_mat mat2] in E.
    apply (f_equal fst) in E. cbn in E. lra.
Qed.
(** The formula does not tell the two states of N, nor what a chain consists of. *)
Theorem C92_state_refuted : forall rounded is_real support other rho,
  formula rounded is_real support other (TLeaf (BPrim (PN true) 0) None) = formula rounded is_real support other (TLeaf (BPrim (PN false) 0) None) /\
  den rho (BPrim (PN true) 0) <> den rho (BPrim (PN false) 0).
Proof.
  intros. split; [reflexivity|]. intros E. apply (f_equal (fun A : Op => A (fun _ => RtoC 1) (fun _ => false))) in E. cbn [den] in E. rewrite !gate1_at in E. cbn [prim_mat mat2] in E.
  apply (f_equal fst) in E. cbn in E. lra.
Qed.
(** All chains of several operations on the same qubits are printed alike. *)
Theorem C92_chain_refuted : forall rounded is_real support other, support (BChain [BPrim PX 0; BPrim PX 1]) = [0; 1] -> support (BChain [BPrim PZ 0; BPrim PZ 1]) = [0; 1] ->
  formula rounded is_real support other (TComp KChain [TLeaf (BPrim PX 0) None; TLeaf (BPrim PX 1) None] None) = Some "(ChainBlock(0,1))" /\
  formula rounded is_real support other (TComp KChain [TLeaf (BPrim PZ 0) None; TLeaf (BPrim PZ 1) None] None) = Some "(ChainBlock(0,1))".
Proof. intros rounded is_real support other E1 E2. split; unfold formula; cbn [rich erase comp map]; rewrite ?E1, ?E2; vm_compute; reflexivity. Qed.

(** * The observables of a model *)
Lemma dict_put_new d kv : ~ In (fst kv) (map fst d) -> dict_put d kv = (d ++ [kv])%list.
Proof.
  intros H. unfold dict_put. destruct (existsb _ d) eqn:E; [|reflexivity]. exfalso. apply existsb_exists in E as (e & I & E). apply String.eqb_eq in E. apply H. rewrite <- E. apply in_map, I.
Qed.
Lemma dict_all (l : list (string * string)) : forall d, NoDup (map fst (d ++ l)%list) -> fold_left dict_put l d = (d ++ l)%list.
Proof.
  induction l as [|kv l IH]; intros d H; [rewrite app_nil_r; reflexivity|]. cbn [fold_left]. rewrite dict_put_new.
  - rewrite IH; rewrite <- app_assoc; [reflexivity|exact H].
  - rewrite map_app in H. cbn [map] in H. apply NoDup_remove_2 in H. intros I. apply H. apply in_or_app. left. exact I.
Qed.
Lemma osequence_keys (f : tblock -> option string) (obs : list tblock) l : osequence (map (fun b => option_map (fun s => (key_of b, s)) (f b)) obs) = Some l ->
  Forall2 (fun b e => fst e = key_of b /\ f b = Some (snd e)) obs l.
Proof.
  revert l. induction obs as [|b obs IH]; intros l H; [injection H as <-; constructor|]. cbn [map osequence] in H.
  destruct (f b) as [s|] eqn:E; [|discriminate]. cbn [option_map] in H. destruct (osequence _) as [l'|] eqn:E'; [|discriminate]. injection H as <-. constructor; [split; [reflexivity|exact E]|apply IH; reflexivity].
Qed.
(** The keys: the tag, or "Obs." without a tag or with an empty one. *)
Theorem C92_keys : forall b, ((tag_of b = None \/ tag_of b = Some "") /\ key_of b = "Obs.") \/ (exists t, t <> "" /\ tag_of b = Some t /\ key_of b = t).
Proof. intros b. unfold key_of. destruct (tag_of b) as [[|c t]|] eqn:E; [left; auto|right; exists (String c t); repeat split; discriminate|left; auto]. Qed.

(** Numerals: the digits [a], optionally followed by a point and the digits [f], with or without a minus sign, are the decimal number they write. *)
Fixpoint text (l : list nat) : string := match l with [] => "" | d :: r => String (ascii_of_nat (48 + d)) (text r) end.
Definition decimal (l : list nat) : Z := fold_left (fun acc d => (10 * acc + Z.of_nat d)%Z) l 0%Z.
Lemma digit_text d : d < 10 -> digit (ascii_of_nat (48 + d)) = Some (Z.of_nat d).
Proof. intros H. do 10 (destruct d as [|d]; [reflexivity|]). lia. Qed.
Lemma digits_text l : Forall (fun d => d < 10) l -> forall acc, digits acc (text l) = Some (fold_left (fun acc d => (10 * acc + Z.of_nat d)%Z) l acc).
Proof. induction 1 as [|d l H _ IH]; intros acc; [reflexivity|]. cbn [text digits fold_left]. rewrite digit_text by exact H. apply IH. Qed.
Lemma split_digit c s : digit c <> None -> split_point (String c s) = let (a, b) := split_point s in (String c a, b).
Proof. intros H. destruct c as [[] [] [] [] [] [] [] []]; try reflexivity. exfalso. apply H. reflexivity. Qed.
Lemma split_text l s : Forall (fun d => d < 10) l -> split_point (text l ++ s) = let (a, b) := split_point s in (text l ++ a, b).
Proof.
  induction 1 as [|d l H _ IH]; [cbn [text append]; destruct (split_point s); reflexivity|]. cbn [text append]. rewrite split_digit by (rewrite digit_text by exact H; discriminate).
  rewrite IH. destruct (split_point s). reflexivity.
Qed.
Lemma text_app l m : text l ++ text m = text (l ++ m)%list.
Proof. induction l as [|d l IH]; [reflexivity|]. cbn [text append app]. rewrite IH. reflexivity. Qed.
Lemma text_length l : String.length (text l) = List.length l.
Proof. induction l as [|d l IH]; [reflexivity|]. cbn [text String.length List.length]. rewrite IH. reflexivity. Qed.
Lemma unsigned_text a (f : option (list nat)) : Forall (fun d => d < 10) a -> Forall (fun d => d < 10) (match f with Some l => l | None => [] end) ->
  (a ++ match f with Some l => l | None => [] end)%list <> [] ->
  unsigned (text a ++ match f with Some l => "." ++ text l | None => "" end) = Some (decimal (a ++ match f with Some l => l | None => [] end), List.length (match f with Some l => l | None => [] end)).
Proof.
  intros Ha Hf N. unfold unsigned. rewrite split_text by exact Ha. destruct f as [f|].
  - cbn [append split_point]. replace (text a ++ "") with (text a) by (rewrite <- (app_nil_r a) at 1; rewrite <- text_app; reflexivity). rewrite text_app, text_length.
    pose proof (digits_text (a ++ f) (proj2 (Forall_app _ _ _) (conj Ha Hf)) 0%Z) as D. destruct (a ++ f)%list as [|d l]; [contradiction|]. cbn [text] in *. rewrite D. reflexivity.
  - cbn [split_point]. rewrite app_nil_r in *. replace (text a ++ "") with (text a) by (rewrite <- (app_nil_r a) at 1; rewrite <- text_app; reflexivity).
    pose proof (digits_text a Ha 0%Z) as D. destruct a as [|d l]; [contradiction|]. cbn [text] in *. rewrite D. reflexivity.
Qed.
Theorem C92_numerals : forall (minus : bool) a (point : option (list nat)), let f := match point with Some l => l | None => [] end in
  Forall (fun d => d < 10) (a ++ f) -> (a ++ f)%list <> [] ->
  py_number ((if minus then "-" else "") ++ text a ++ match point with Some l => "." ++ text l | None => "" end) =
  Some ((if minus then - decimal (a ++ f) else decimal (a ++ f))%Z, List.length f).
Proof.
  intros minus a point f H N. apply Forall_app in H as [Ha Hf]. pose proof (unsigned_text a point Ha Hf N) as U. fold f in U. destruct minus.
  - set (s := text a ++ _) in *. cbn [append py_number]. rewrite U. reflexivity.
  - set (s := text a ++ _) in *. change ("" ++ s) with s. unfold s in *. rewrite <- U. destruct a as [|d l].
    + destruct point as [l|]; [reflexivity|contradiction].
    + inversion Ha as [|? ? Hd _]; subst. cbn [text append]. clear -Hd. do 10 (destruct d as [|d]; [reflexivity|]). lia.
Qed.
Example C92_numerals_example : text [2] ++ "." ++ text [5; 0] = "2.50" /\ decimal [2; 5; 0] = 250%Z /\ py_number "-2.50" = Some ((-250)%Z, 2) /\ py_number "-1" = Some ((-1)%Z, 0).
Proof. repeat split; reflexivity. Qed.

(** With different tags every observable has its entry, in order: its tag and its formula.  Nothing is returned if one of them cannot be printed. *)
Theorem C92_observables : forall rounded is_real support other obs, NoDup (map key_of obs) ->
  match observables_to_expression rounded is_real support other obs with
  | Some d => Forall2 (fun b e => fst e = key_of b /\ formula rounded is_real support other b = Some (snd e)) obs d
  | None => exists b, In b obs /\ formula rounded is_real support other b = None
  end.
Proof.
  intros rounded is_real support other obs H. unfold observables_to_expression. destruct (osequence _) as [l|] eqn:E; cbn [option_map].
  - apply osequence_keys in E. rewrite dict_all; [exact E|]. cbn [app]. replace (map fst l) with (map key_of obs); [exact H|].
    clear H. induction E as [|b e obs l [H _] _ IH]; [reflexivity|]. cbn [map]. rewrite IH, H. reflexivity.
  - clear H. induction obs as [|b obs IH]; [discriminate|]. cbn [map osequence] in E. destruct (formula rounded is_real support other b) as [s|] eqn:F; [|exists b; split; [left; reflexivity|exact F]].
    cbn [option_map] in E. destruct (osequence _) as [l'|] eqn:E'; [discriminate|]. destruct (IH eq_refl) as (b' & I & N). exists b'. split; [right; exact I|exact N].
Qed.
Example C92_observables_example : forall rounded is_real support other, observables_to_expression rounded is_real support other
  [TLeaf (BPrim PZ 0) (Some "first"); TLeaf (BPrim PX 1) None] = Some [("first", "Z(0) \[tag: first]"); ("Obs.", "X(1)")].
Proof. intros. vm_compute. reflexivity. Qed.
(** Of several observables without a tag only the last is shown. *)
Theorem C92_observables_refuted : forall rounded is_real support other, observables_to_expression rounded is_real support other
  [TLeaf (BPrim PZ 0) None; TLeaf (BPrim PX 1) None] = Some [("Obs.", "X(1)")].
Proof. intros. vm_compute. reflexivity. Qed.

Print Assumptions C92_reads.
Print Assumptions C92_observables.
