(** Model of qadence/backends/pyqtorch/convert_ops.py, of the default passes in qadence/backends/pyqtorch/config.py and of
    [Backend.circuit] / [Backend.observable] in qadence/backends/pyqtorch/backend.py, on digital blocks without noise. *)
From Coq Require Import String Reals List Arith Bool ZArith.
From Coquelicot Require Import Coquelicot.
From Coq Require Import List.
From Verif Require Import S_Ops M_QubitSupport M_Block S_Den M_BlockOps M_Tensor M_Transpile M_Fill.
Import ListNotations.
Open Scope string_scope.
Open Scope list_scope.

(** * Scale expressions *)
(** sympy expressions as a tree of [func] and [args]; a leaf is a real number, the imaginary unit or a symbol. *)
Inductive sx :=
| SNum (x : R)
| SImag
| SSym (s : string)
| SFun (f : string) (args : list sx).

(** pyqtorch's ConcretizedCallable: a number, the name of an entry of the values dictionary, or a call. *)
Inductive pc :=
| PCst (x : R)
| PKey (s : string)
| PCall (f : string) (args : list pc).

(** convert_ops.py:45-61 [SYMPY_TO_PYQ_MAPPING]; [None] is the KeyError. *)
Definition mapping : list (string * string) :=
  [("Pow", "pow"); ("cos", "cos"); ("Add", "add"); ("Mul", "mul"); ("sin", "sin"); ("log", "log"); ("tan", "tan");
   ("tanh", "tanh"); ("Heaviside", "hs"); ("Abs", "abs"); ("exp", "exp"); ("acos", "acos"); ("asin", "asin"); ("atan", "atan")].
Definition pyq_name (f : string) : option string :=
  match find (fun p => String.eqb (fst p) f) mapping with Some p => Some (snd p) | None => None end.

(** functools.reduce without an initial value *)
Definition reduce {A} (fn : A -> A -> A) (l : list A) : option A :=
  match l with [] => None | x :: r => Some (fold_left fn r x) end.

(** convert_ops.py:135-174 [sympy_to_pyq].  Leaves: a number is converted by [float]; the imaginary unit is not and becomes the
    string "I"; a symbol becomes its name. *)
Fixpoint sympy_to_pyq (e : sx) : option pc :=
  match e with
  | SNum x => Some (PCst x)
  | SImag => Some (PKey "I")
  | SSym s => Some (PKey s)
  | SFun f args =>
      obind (osequence (map sympy_to_pyq args)) (fun rs =>
      obind (pyq_name f) (fun name =>
      if Nat.ltb 2 (length rs) then reduce (fun x y => PCall name [x; y]) rs
      else Some (PCall name rs)))
  end.

(** How sympy.parse_expr reads a bare name: as a symbol, as a number (E, pi), or not as an expression (gamma, lambda). *)
Inductive read_name := RSymbol | RNumber (x : R) | RError.

(** * Native operations *)
(** The parameter of a native operation: a tensor, an entry of the values dictionary (keyed by the parameter's uuid when [gate]
    is true, by its printed expression otherwise), or a ConcretizedCallable. *)
Inductive pv :=
| VConst (c : C)
| VKey (gate : bool) (e : expr)
| VCall (p : pc).

(** pyqtorch operations.  [QEvo td] is HamiltonianEvolution, [td] tells whether the generator is time dependent. *)
Inductive pyqop :=
| QPrim (p : prim) (q : nat)
| QN (q : nat)
| QProj (kt br : list bool) (qs : list nat)
| QRot (r : rot) (q : nat) (v : pv)
| QU (q : nat) (phi theta omega : pv)
| QSwap (a b : nat)
| QCSwap (cs ts : list nat)
| QCtrl (p : prim) (cs : list nat) (t : nat)
| QPCtrl (r : rot) (cs : list nat) (t : nat) (v : pv)
| QScale (o : pyqop) (v : pv)
| QAdd (os : list pyqop)
| QSeq (os : list pyqop)
| QMerge (os : list pyqop)
| QMat (m : nat -> nat -> C) (qs : list nat)
| QEvo (td : bool) (qs : list nat) (gen : pyqop) (t : pv).

(** The symbols of an expression. *)
Fixpoint vars (e : expr) : list string :=
  match e with
  | ECst _ => []
  | EVar s => [s]
  | ENeg a | EPow a _ | EConj a | EFun _ a => vars a
  | EAdd a b | EMul a b => vars a ++ vars b
  end.
(** blocks/utils.py:201-252 [parameters] with [uuid_to_block]: the symbols of the parameters of a block.  A ControlBlock
    (without parameters) is a PrimitiveBlock and contributes nothing; a ParametricControlBlock has the parameters of its target. *)
Fixpoint bparams (b : block) : list string :=
  match b with
  | BRot _ _ e => vars e
  | BU _ x y z => vars x ++ vars y ++ vars z
  | BPCtrl _ b' => bparams b'
  | BScale b' e => vars e ++ bparams b'
  | BChain bs | BKron bs | BAdd bs => flat_map bparams bs
  | BEvo g t => bparams g ++ vars t
  | _ => []
  end.
(** blocks/abstract.py:296-301 [is_parametric] *)
Definition is_parametric (b : block) : bool := match bparams b with [] => false | _ => true end.
(** The value of an expression without symbols. *)
Definition cval (e : expr) : C := ev (fun _ => 0%R) e.

Section Convert.
  Variable set_iter : list nat -> list nat.
  (** sympy.parse_expr on the names of parameters. *)
  Variable parse_name : string -> read_name.
  (** Python's hash of a number. *)
  Variable num_hash : C -> Z.
  (** Parameters created by TimeParameter. *)
  Variable is_time : string -> bool.
  (** config.use_single_qubit_composition *)
  Variable merge : bool.

  (** blocks/abstract.py:303-308 [is_time_dependent] *)
  Definition time_dependent (b : block) : bool := existsb is_time (bparams b).

  (** The printed expression read back by sympy.parse_expr (the dots replaced by stringify are put back by
      [replace_underscore_floats], convert_ops.py:102-132). *)
  Fixpoint parse (e : expr) : option sx :=
    match e with
    | ECst c => Some (if Req_EM_T (snd c) 0 then SNum (fst c) else SFun "Add" [SNum (fst c); SFun "Mul" [SNum (snd c); SImag]])
    | EVar s => match parse_name s with RSymbol => Some (SSym s) | RNumber x => Some (SNum x) | RError => None end
    | ENeg a => omap (fun x => SFun "Mul" [SNum (-1)%R; x]) (parse a)
    | EAdd a b => obind (parse a) (fun x => omap (fun y => SFun "Add" [x; y]) (parse b))
    | EMul a b => obind (parse a) (fun x => omap (fun y => SFun "Mul" [x; y]) (parse b))
    | EPow a k => omap (fun x => SFun "Pow" [x; SNum (INR k)]) (parse a)
    | EConj a => omap (fun x => SFun "conjugate" [x]) (parse a)
    | EFun f a => omap (fun x => SFun (match f with FCos => "cos" | FSin => "sin" end) [x]) (parse a)
    end.

  (** convert_ops.py:81-99 [extract_parameter] for rotations; [g] is config._use_gate_params. *)
  Definition rot_param (g : bool) (b : block) (e : expr) : pv :=
    if is_parametric b then VKey g e else VConst (cval e).

  (** convert_ops.py:210-223: the scale of a ScaleBlock [b] with parameter [e].  In expression mode the parameter's printed form is
      parsed: a number is printed as "fix_" followed by its hash (parameters.py:291-293), which is a symbol when the hash is not
      negative and the difference "fix_ - n" otherwise. *)
  Definition scale_param (g : bool) (b : block) (e : expr) : option pv :=
    if is_parametric b then
      if g then Some (VKey true e)
      else match vars e with
           | [] => if (num_hash (cval e) <? 0)%Z then omap VCall (sympy_to_pyq (SFun "Add" [SNum (IZR (num_hash (cval e))); SSym "fix_"]))
                   else Some (VKey false e)
           | _ => obind (parse e) (fun x => omap VCall (sympy_to_pyq x))
           end
    else Some (VConst (cval e)).

  (** isinstance(b, (ParametricBlock, PrimitiveBlock)) and not isinstance(b, (ScaleBlock, U)) *)
  Definition mergeable (b : block) : bool :=
    match b with BChain _ | BKron _ | BAdd _ | BScale _ _ | BU _ _ _ _ => false | _ => true end.
  (** convert_ops.py:72-78 [is_single_qubit_chain] *)
  Definition is_single_qubit_chain (b : block) : bool :=
    match b with
    | BChain bs => Nat.eqb (length (sup set_iter b)) 1 && forallb mergeable bs
    | _ => false
    end.

  (** convert_ops.py:177-351 [convert_block].  The first component is the single native operation of the returned list, the second
      the value of config._use_gate_params afterwards (line 228 sets it to False).  [None] is NotImplementedError or an
      AttributeError/KeyError. *)
  Fixpoint convert (g : bool) (b : block) : option (pyqop * bool) :=
    let go := fix go (g : bool) (bs : list block) : option (list pyqop * bool) :=
      match bs with
      | [] => Some ([], g)
      | x :: r => obind (convert g x) (fun p => obind (go (snd p) r) (fun q => Some (fst p :: fst q, snd q)))
      end in
    let qs := sup set_iter b in
    match b with
    | BScale b' e =>
        obind (convert g b') (fun r => obind (scale_param (snd r) b e) (fun v => Some (QScale (QSeq [fst r]) v, snd r)))
    | BEvo gen t =>
        let td := time_dependent gen in
        obind (convert (if td then false else g) gen) (fun r => Some (QEvo td qs (fst r) (VKey (snd r) t), snd r))
    | BMat m _ => Some (QMat m qs, g)
    | BAdd bs => obind (go g bs) (fun r => Some (QAdd (fst r), snd r))
    | BChain bs | BKron bs =>
        obind (go g bs) (fun r =>
          Some (if is_single_qubit_chain b && merge then QMerge (fst r) else QSeq (fst r), snd r))
    | BProj kt br _ => Some (QProj kt br qs, g)
    | BPrim (PN _) q => Some (QN q, g)
    | BPrim PTdg _ => None
    | BPrim p q => Some (QPrim p q, g)
    | BRot r q e => Some (QRot r q (rot_param g b e), g)
    | BU q x y z => Some (QU q (VKey g x) (VKey g y) (VKey g z), g)
    | BSwap x y => Some (QSwap x y, g)
    | BCSwap _ _ _ => Some (QCSwap (firstn (length qs - 2) qs) (skipn (length qs - 2) qs), g)
    | BCtrl _ (BPrim PX _) => Some (QCtrl PX (removelast qs) (last qs 0%nat), g)
    | BCtrl _ (BPrim PZ _) => Some (QCtrl PZ (removelast qs) (last qs 0%nat), g)
    | BPCtrl _ (BRot r _ e) => Some (QPCtrl r (removelast qs) (last qs 0%nat) (rot_param g b e), g)
    | BCtrl _ _ | BPCtrl _ _ => None
    end.

  (** transpile/apply_fn.py:17-43 [apply_fn_to_blocks], as used by analog/parse_analog.py:56-79 [add_background_hamiltonian] on a
      block without analog blocks: the composite blocks are rebuilt, the leaves are kept. *)
  Fixpoint rebuild (b : block) : option block :=
    match b with
    | BChain bs => obind (osequence (map rebuild bs)) (construct set_iter KChain)
    | BKron bs => obind (osequence (map rebuild bs)) (construct set_iter KKron)
    | BAdd bs => obind (osequence (map rebuild bs)) (construct set_iter KAdd)
    | _ => Some b
    end.

  Variable ident : list block -> list nat.
  (** config.py:30-33 *)
  Definition simplify (b : block) : option block :=
    if merge then chain_ops set_iter ident b else flatten set_iter [KChain; KKron; KAdd] b.
  (** config.py:21-37 [default_passes], composed by transpile/transpile.py:75: the last pass of the list is applied first. *)
  Definition default_passes (b : block) : option block :=
    obind (scale_prims set_iter None b) (fun y => obind (simplify y) rebuild).
  (** backend.py:98-141 [Backend.circuit] (no noise, no dropout). *)
  Definition backend_circuit (g : bool) (b : block) : option (pyqop * bool) := obind (default_passes b) (convert g).
  (** backend.py:143-156 [Backend.observable] *)
  Definition backend_observable (g : bool) (b : block) : option (pyqop * bool) :=
    obind (obind (scale_prims set_iter None b) simplify) (convert g).
End Convert.
