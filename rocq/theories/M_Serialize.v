(** Model of qadence/serialization.py ([serialize], [deserialize] and the classes they dispatch to), of the [_to_dict] /
    [_from_dict] methods of the block classes (blocks/primitive.py, blocks/composite.py), of ParamMap and Parameter
    (parameters.py) and of QuantumCircuit (circuit.py).  A Python exception is [None]. *)
From Coq Require Import String List Arith Bool Ascii.
From Coq Require Import List.
From Verif Require Import S_Grammar M_Grammar M_Tensor M_Transpile.
From Verif Require M_Noise.
Import ListNotations.
Open Scope string_scope.
Open Scope nat_scope.
Open Scope list_scope.
Notation txt := list_ascii_of_string.

(** * Expressions *)
(** parameters.py:47-150 [Parameter]: a name, the keyword assumptions it was constructed with (sympy keeps them as booleans) and
    its value, identified here with the text [str(value)] (so Python's [float(str(v)) = v] is built in).  [trainable] and
    [is_time] are read off the keywords (parameters.py:124-126).  [sy_param = false] is a plain sympy Symbol. *)
Record symbol := { sy_param : bool; sy_name : text; sy_kw : list (text * bool); sy_value : string }.
Fixpoint kwget (kw : list (text * bool)) (k : text) : option bool :=
  match kw with [] => None | (k', b) :: r => if list_eq_dec ascii_dec k' k then Some b else kwget r k end.
Definition trainable (s : symbol) : bool := match kwget (sy_kw s) (txt "trainable") with Some b => b | None => true end.
Definition is_time (s : symbol) : bool := match kwget (sy_kw s) (txt "is_time") with Some b => b | None => false end.

(** sympy expressions: numbers (by their printed digits), bare constants such as [pi], symbols, applications.
    Simplification: an application keeps its arguments in printing order and rebuilding it from them gives the same expression
    (sympy's canonical forms). *)
Inductive sexpr :=
| SInt (k : text) | SRat (p q : text) | SFloat (digits prec : text)
| SName (n : text) | SSym (s : symbol)
| SApp (f : text) (args : list sexpr).

(** Python's [repr] of a string (printable characters). *)
Definition escape (c : ascii) : text := if Ascii.eqb c "\"%char then ["\"; "\"]%char else if Ascii.eqb c "'"%char then ["\"; "'"]%char else [c].
Definition pyrepr (k : text) : text :=
  if existsb (Ascii.eqb "'"%char) k && negb (existsb (Ascii.eqb """"%char) k) then
    """"%char :: flat_map (fun c => if Ascii.eqb c "\"%char then ["\"; "\"]%char else [c]) k ++ [""""%char]
  else "'"%char :: flat_map escape k ++ ["'"%char].

(** The shape of what sympy's [srepr] prints, and its text (arguments separated by a comma and a space). *)
Inductive printed :=
| PInt (k : text) | PStr (k : text) | PKeyInt (n k : text) | PKeyBool (n : text) (b : bool)
| PName (n : text) | PApp (f : text) (args : list printed).
Fixpoint join (l : list text) : text := match l with [] => [] | [x] => x | x :: r => x ++ txt ", " ++ join r end.
Fixpoint render (p : printed) : text :=
  match p with
  | PInt k => k
  | PStr k => pyrepr k
  | PKeyInt n k => n ++ "="%char :: k
  | PKeyBool n b => n ++ "="%char :: bool_text b
  | PName n => n
  | PApp f args => f ++ "("%char :: join (map render args) ++ [")"%char]
  end.
(** sympy's ReprPrinter for the expressions above *)
Fixpoint printed_of (e : sexpr) : printed :=
  match e with
  | SInt k => PApp (txt "Integer") [PInt k]
  | SRat p q => PApp (txt "Rational") [PInt p; PInt q]
  | SFloat d p => PApp (txt "Float") [PStr d; PKeyInt (txt "precision") p]
  | SName n => PName n
  | SSym s => PApp (if sy_param s then txt "Parameter" else txt "Symbol") (PStr (sy_name s) :: map (fun kb => PKeyBool (fst kb) (snd kb)) (sy_kw s))
  | SApp f args => PApp f (map printed_of args)
  end.
Definition srepr (e : sexpr) : text := render (printed_of e).

Fixpoint free_symbols (e : sexpr) : list symbol :=
  match e with SSym s => [s] | SApp _ args => flat_map free_symbols args | _ => [] end.

(** parameters.py:155-162 [Parameter._to_dict] (the schema check passes: three strings) *)
Record symdict := { sd_name : text; sd_trainable : bool; sd_value : string }.
Definition sym_to_dict (s : symbol) : option symdict :=
  if sy_param s then Some {| sd_name := sy_name s; sd_trainable := trainable s; sd_value := sy_value s |} else None.
(** parameters.py:164-172 [Parameter._from_dict] *)
Definition sym_from_dict (d : symdict) : symbol :=
  {| sy_param := true; sy_name := sd_name d; sy_kw := [(txt "trainable", sd_trainable d); (txt "value", true)]; sy_value := sd_value d |}.

(** The dictionary of an expression ("name" is never read back). *)
Record exprdict := { x_expression : text; x_symbols : option (list (text * symdict)) }.
(** serialization.py:283-291 [serialize] of an expression; the set of free symbols is enumerated in the order [ord] gives.
    A symbol without [_to_dict] makes the enclosing [try] return the empty dictionary: [None]. *)
Definition serialize_expr (ord : list symbol -> list symbol) (e : sexpr) : option exprdict :=
  match ord (free_symbols e) with
  | [] => Some {| x_expression := srepr e; x_symbols := None |}
  | syms => match osequence (map (fun s => match sym_to_dict s with Some d => Some (sy_name s, d) | None => None end) syms) with
            | Some l => Some {| x_expression := srepr e; x_symbols := Some l |}
            | None => None
            end
  end.

(** [eval] of an accepted text (serialization.py:209), for the calls [srepr] prints.  A new Parameter's value is the keyword's
    boolean or a random number: [fresh] stands for it. *)
Definition kwarg (t : call) : option (text * bool) := match t with Val (VKeyBool n b) => Some (n, b) | _ => None end.
Fixpoint eval_call (fresh : string) (t : call) : option sexpr :=
  match t with
  | Val _ => None
  | Call f args =>
      if list_eq_dec ascii_dec f (txt "Integer") then match args with [Val (VInt k)] => Some (SInt k) | _ => None end
      else if list_eq_dec ascii_dec f (txt "Rational") then match args with [Val (VInt p); Val (VInt q)] => Some (SRat p q) | _ => None end
      else if list_eq_dec ascii_dec f (txt "Float") then match args with [Val (VQuoted d); Val (VKeyInt _ p)] => Some (SFloat d p) | _ => None end
      else if list_eq_dec ascii_dec f (txt "Parameter") then
        match args with
        | Val (VQuoted n) :: kws => match osequence (map kwarg kws) with
                                    | Some kw => Some (SSym {| sy_param := true; sy_name := n; sy_kw := kw; sy_value := fresh |})
                                    | None => None
                                    end
        | _ => None
        end
      else match osequence (map (eval_call fresh) args) with Some l => Some (SApp f l) | None => None end
  end.
(** a Python dictionary built from a list of items: the last one wins *)
Definition tlookup {A} (k : text) (l : list (text * A)) : option A :=
  fold_left (fun acc kv => if list_eq_dec ascii_dec (fst kv) k then Some (snd kv) else acc) l None.
(** serialization.py:210-212: every free symbol receives the stored value; a missing entry is a KeyError *)
Fixpoint assign (d : option (list (text * symdict))) (e : sexpr) : option sexpr :=
  match e with
  | SSym s => match d with
              | None => None
              | Some l => match tlookup (sy_name s) l with
                          | Some sd => Some (SSym {| sy_param := sy_param s; sy_name := sy_name s; sy_kw := sy_kw s; sy_value := sd_value sd |})
                          | None => None
                          end
              end
  | SApp f args => match osequence (map (assign d) args) with Some l => Some (SApp f l) | None => None end
  | e => Some e
  end.
(** serialization.py:203-215 [ExpressionSerialization] *)
Definition deserialize_expr (fresh : string) (d : exprdict) : option sexpr :=
  match parse (x_expression d) with
  | Some t => match eval_call fresh t with Some e => assign (x_symbols d) e | None => None end
  | None => None
  end.

(** parameters.py:323-330: names with a uuid and an expression *)
Definition parammap := list (string * (string * sexpr)).
(** parameters.py:368-372, 374-383; the empty dictionary of a failed [serialize] is not recognised by [deserialize] *)
Definition params_to_dict (ord : list symbol -> list symbol) (ps : parammap) : list (string * (string * option exprdict)) :=
  map (fun p => (fst p, (fst (snd p), serialize_expr ord (snd (snd p))))) ps.
Definition params_from_dict (fresh : string) (d : list (string * (string * option exprdict))) : option parammap :=
  osequence (map (fun p => match snd (snd p) with
                           | Some x => match deserialize_expr fresh x with Some e => Some (fst p, (fst (snd p), e)) | None => None end
                           | None => None
                           end) d).

(** * Blocks *)
Definition noise := (list M_Noise.proto * list M_Noise.opt)%type.
Definition tag := option string.
(** Blocks by their class name, with everything [_to_dict] can see. *)
Inductive sblock :=
| SPrim (c : string) (qs : list nat) (n : option noise) (t : tag)
| SParam (c : string) (qs : list nat) (ps : parammap) (n : option noise) (t : tag)
| SCtrl (c : string) (qs : list nat) (b : sblock) (n : option noise) (t : tag)
| SPCtrl (c : string) (qs : list nat) (b : sblock) (n : option noise) (t : tag)
| SScale (ps : parammap) (b : sblock) (t : tag)
| SComp (c : string) (bs : list sblock) (qs : list nat) (t : tag).
(** [SComp]'s [qs] is what its [qubit_support] reports; only a PutBlock stores it. *)

Definition prim1 : list string := ["X"; "Y"; "Z"; "I"; "H"; "S"; "SDagger"; "T"; "TDagger"].
Definition rotations : list string := ["RX"; "RY"; "RZ"].
Definition composites : list string := ["ChainBlock"; "KronBlock"; "AddBlock"].
Definition inb (c : string) (l : list string) : bool := existsb (String.eqb c) l.

Inductive dict :=
| Dict (ty : string) (support : option (list nat)) (t : tag) (params : option (list (string * (string * option exprdict))))
       (blocks : option (list dict)) (block : option dict) (n : option noise).
Definition d_type (d : dict) : string := match d with Dict ty _ _ _ _ _ _ => ty end.
Definition d_tag (d : dict) : tag := match d with Dict _ _ t _ _ _ _ => t end.

Section WithOrder.
  Variable ord : list symbol -> list symbol.
  Variable fresh : string.

  (** primitive.py:93-99 (PrimitiveBlock), 203-210 (ParametricBlock), 326-332 (ScaleBlock), 409-416 and 470-477 (the two control
      blocks, whose parameters are only inside the target block), composite.py:117-123 *)
  Fixpoint to_dict (b : sblock) : dict :=
    match b with
    | SPrim c qs n t => Dict c (Some qs) t None None None n
    | SParam c qs ps n t => Dict c (Some qs) t (Some (params_to_dict ord ps)) None None n
    | SCtrl c qs b n t => Dict c (Some qs) t None (Some [to_dict b]) None n
    | SPCtrl c qs b n t => Dict c (Some qs) t None (Some [to_dict b]) None n
    | SScale ps b t => Dict "ScaleBlock" None t (Some (params_to_dict ord ps)) None (Some (to_dict b)) None
    | SComp c bs qs t => Dict c (Some qs) t None (Some (map to_dict bs)) None None
    end.

  (** noise/protocols.py:135-145 [NoiseHandler._to_dict], [_from_dict]: nothing for a missing or empty dictionary; the
      constructor verifies. The outer [None] is an exception. *)
  Definition noise_from_dict (d : option noise) : option (option noise) :=
    match d with
    | None => Some None
    | Some ([], _) => Some None
    | Some (ps, os) => if M_Noise.verify_all ps os then Some (Some (ps, os)) else None
    end.

  Definition support_of : sblock -> list nat :=
    fix sup b := match b with
                 | SPrim _ qs _ _ | SParam _ qs _ _ _ | SCtrl _ qs _ _ _ | SPCtrl _ qs _ _ _ => qs
                 | SScale _ b _ => sup b
                 | SComp c bs qs _ => if inb c composites then flat_map sup bs else qs
                 end.
  (** composite.py:221-233 [KronBlock.__init__]: not empty, pairwise disjoint supports *)
  Fixpoint disjoint_supports (acc : list nat) (l : list (list nat)) : bool :=
    match l with [] => true | s :: r => forallb (fun q => negb (existsb (Nat.eqb q) acc)) s && disjoint_supports (acc ++ s) r end.
  Definition composite_ok (c : string) (bs : list sblock) : bool :=
    if String.eqb c "KronBlock" then match bs with [] => false | _ => disjoint_supports [] (map support_of bs) end else true.

  (** control_ops.py:37-39, 65-69, 90-99 [CNOT], [CZ]: the target block is a plain X or Z; the generator is a kron, so the two qubits must differ *)
  Definition ctrl_target (c : string) : string := if String.eqb c "CNOT" then "X" else "Z".

  (** The [_from_dict] of the class called [ty], looked up in qadence.operations, then in qadence.blocks:
      primitive.py:101-103, 212-216, 334-346, 418-422, 479-488; composite.py:125-140.
      Classes whose constructor does not accept what [_from_dict] passes raise:
      - N, Projector, Zero, MatrixBlock (primitive.py:101-103 passes the qubits and the noise): operations/primitive.py:127-177,
        the noise (None) lands in N's [state] argument; Projector misses arguments; Zero takes none;
      - PHASE (a ParamMap inside a ParamMap), U (three parameters), HamEvo (its generator is not stored): parametric.py:37-45, ham_evo.py;
      - MCZ and Toffoli (an int where the controls are iterated), CSWAP (no second target): control_ops.py:65-69, 290-320;
      - every parametric control block: [deserialize] of the bare parameter dictionary raises (serialization.py:172-200);
      - PutBlock ([_construct] does not pass its support) and the analog composites. *)
  Fixpoint from_dict (d : dict) : option sblock :=
    match d with
    | Dict ty sup t params blocks block n =>
        if inb ty prim1 then
          match sup, noise_from_dict n with Some [q], Some n => Some (SPrim ty [q] n None) | _, _ => None end
        else if String.eqb ty "SWAP" then
          match sup, noise_from_dict n with
          | Some [a; b], Some n => if Nat.eqb a b then None else Some (SPrim ty [a; b] n None)
          | _, _ => None
          end
        else if inb ty rotations then
          match sup, params, noise_from_dict n with
          | Some (q :: _), Some pd, Some n => match params_from_dict fresh pd with Some ps => Some (SParam ty [q] ps n None) | None => None end
          | _, _, _ => None
          end
        else if inb ty ["CNOT"; "CZ"] then
          match sup, noise_from_dict n with
          | Some (a :: b :: _), Some n => if Nat.eqb a b then None else Some (SCtrl ty [a; b] (SPrim (ctrl_target ty) [b] None None) n None)
          | _, _ => None
          end
        else if String.eqb ty "ScaleBlock" then
          match params, block with
          | Some pd, Some bd => match params_from_dict fresh pd, from_dict bd with Some ps, Some b => Some (SScale ps b None) | _, _ => None end
          | _, _ => None
          end
        else if inb ty composites then
          match blocks with
          | Some ds => match osequence (map from_dict ds) with
                       | Some bs => if composite_ok ty bs then Some (SComp ty bs (flat_map support_of bs) t) else None
                       | None => None
                       end
          | None => None
          end
        else None
    end.

  Definition set_tag (b : sblock) (t : tag) : sblock :=
    match b with
    | SPrim c qs n _ => SPrim c qs n t
    | SParam c qs ps n _ => SParam c qs ps n t
    | SCtrl c qs b n _ => SCtrl c qs b n t
    | SPCtrl c qs b n _ => SPCtrl c qs b n t
    | SScale ps b _ => SScale ps b t
    | SComp c bs qs _ => SComp c bs qs t
    end.
  (** serialization.py:141-153 [BlockTypeSerialization]: the tag of the outermost block is put back *)
  Definition deserialize (d : dict) : option sblock :=
    match from_dict d with
    | Some b => Some (match d_tag d with Some t => set_tag b (Some t) | None => b end)
    | None => None
    end.
End WithOrder.

(** circuit.py:158-162, 177-191: a circuit is its block and its register; the block comes back through its own [_from_dict]
    (not through [deserialize]).  The register's own two methods are parameters [rto], [rfrom]. *)
Definition circuit_to_dict {Reg RD} ord (rto : Reg -> RD) (c : sblock * Reg) : dict * RD := (to_dict ord (fst c), rto (snd c)).
Definition circuit_from_dict {Reg RD} fresh (rfrom : RD -> option Reg) (d : dict * RD) : option (sblock * Reg) :=
  match rfrom (snd d), from_dict fresh (fst d) with Some r, Some b => Some (b, r) | _, _ => None end.

(** serialization.py:222-224, 231-233: a JSON file keeps everything except that the noise protocols, enumeration members,
    come back as plain strings *)
Definition json_noise (n : option noise) : option noise :=
  match n with
  | Some (ps, os) => Some (map (fun p => {| M_Noise.pkind := M_Noise.pkind p; M_Noise.pmember := false; M_Noise.pid := M_Noise.pid p |}) ps, os)
  | None => None
  end.
Fixpoint through_json (d : dict) : dict :=
  match d with
  | Dict ty sup t params blocks block n =>
      Dict ty sup t params (match blocks with Some l => Some (map through_json l) | None => None end)
        (match block with Some b => Some (through_json b) | None => None end) (json_noise n)
  end.
