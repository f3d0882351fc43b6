(** Model of qadence/backends/horqrux/convert_ops.py, of the default passes in qadence/backends/horqrux/config.py, of
    [Backend.circuit], [observable], [run], [expectation] and [sample] in qadence/backends/horqrux/backend.py, and of
    [block_to_jax], [horqify], [unhorqify] and [uniform_batchsize] in qadence/backends/jax_utils.py, on digital blocks.
    What horqrux's operations and jax's array functions do is written down here as well ([hden], [native_apply],
    [native_expectation], [vmap]); it is trusted. *)
From Coq Require Import String Reals List Arith Bool ZArith.
From Coquelicot Require Import Coquelicot.
From Coq Require Import List.
From Verif Require Import S_Ops M_QubitSupport M_Block S_Den S_PSR S_State M_BlockOps M_Basis M_Tensor M_Transpile M_Fill M_Convert.
Import ListNotations.
Open Scope R_scope.
Open Scope C_scope.

(** * Matrices of generators *)
(** jax_utils.py:75-93 [_fill_identities] (diag_only=False).  The full support is taken in the given order and the endianness is
    not used.  [None] is the IndexError of an empty support. *)
Definition j_fill (block_mat : tensor) (qubit_support full : list nat) : option tensor :=
  match full, sorted qubit_support with
  | f0 :: rest, q0 :: qs =>
      let mat := if Nat.eqb q0 f0 then block_mat else IMAT in
      Some (fold_left (fill_step BIG block_mat (q0 :: qs) q0) rest mat)
  | _, _ => None
  end.

(** jax_utils.py:72 [MAT_DICT] by block name, and 150-163 for N, which is a ProjectorBlock; [None]: TypeError. *)
Definition mat_dict (p : prim) : option tensor :=
  match p with
  | PI_ => Some IMAT
  | PX => Some XMAT
  | PY => Some YMAT
  | PZ => Some ZMAT
  | PN st => Some (proj_matrix [st] [st])
  | _ => None
  end.

Section Jax.
  Variable rho : env.
  Variable full : list nat.
  (** jax_utils.py:96-167 [block_to_jax] with the [qubit_support] argument [full]. *)
  Fixpoint b2j (b : block) : option tensor :=
    match b with
    | BChain bs | BKron bs => chain_t (length full) (map b2j bs)
    | BAdd bs => add_t (length full) (map b2j bs)
    | BScale b' s => obind (b2j b') (fun m => Some (t_scale (ev rho s) m))
    | BPrim p q => obind (mat_dict p) (fun m => j_fill m [q] full)
    | BProj kt br qs => j_fill (proj_matrix kt br) qs full
    | _ => None
    end.
End Jax.

(** * Native operations *)
(** The name of an entry of the values dictionary: the uuid of the gate's parameter when the first component is true, the
    printed expression otherwise (backend.py:89-105 [get_param_name]). *)
Definition hkey : Type := (bool * expr)%type.

(** horqrux operations.  An empty list of controls stands for the control [(None,)]. *)
Inductive hop :=
| HGate (p : prim) (target : nat) (control : list nat)
| HRot (r : rot) (param : hkey) (target : nat) (control : list nat)
| HSwap (a b : nat)
| HSeq (os : list hop)
| HAdd (os : list hop)
| HScale (o : hop) (param : hkey)
| HEvo (qs : list nat) (hamiltonian : env -> option tensor) (time : hkey).

Section Convert.
  Variable set_iter : list nat -> list nat.
  (** config._use_gate_params *)
  Variable g : bool.

  (** convert_ops.py:135-165 [HorqHamiltonianEvolution.__init__]: the matrix of a generator without parameters is computed at
      once (an error is raised here), any other at every call. *)
  Definition h_evolution (b gen : block) (t : expr) : option hop :=
    let qs := sup set_iter b in
    if is_parametric gen then Some (HEvo qs (fun rho => b2j rho qs gen) (g, t))
    else obind (b2j (fun _ => 0%R) qs gen) (fun m => Some (HEvo qs (fun _ => Some m) (g, t))).

  (** convert_ops.py:94-98: target and control of CZ, CNOT, CRX, CRY, CRZ (one control) and 115-119 of the MC gates. *)
  Definition h_target (cs qs : list nat) : nat := match cs with [_] => nth 1 qs 0%nat | _ => last qs 0%nat end.
  Definition h_control (cs qs : list nat) : list nat := match cs with [_] => [nth 0 qs 0%nat] | _ => removelast qs end.

  (** convert_ops.py:75-132 [convert_block]; every branch returns a list with one operation, given here without the list.
      [None] is NotImplementedError, or TypeError for a generator. *)
  Fixpoint hconv (b : block) : option hop :=
    let qs := sup set_iter b in
    match b with
    | BChain bs | BKron bs => omap HSeq (osequence (map hconv bs))
    | BAdd bs => omap HAdd (osequence (map hconv bs))
    | BScale b' e => omap (fun o => HScale o (g, e)) (hconv b')
    | BPrim PX q => Some (HGate PX q [])
    | BPrim PY q => Some (HGate PY q [])
    | BPrim PZ q => Some (HGate PZ q [])
    | BPrim PH q => Some (HGate PH q [])
    | BPrim PI_ q => Some (HGate PI_ q [])
    | BRot RX_ q e => Some (HRot RX_ (g, e) q [])
    | BRot RY_ q e => Some (HRot RY_ (g, e) q [])
    | BRot RZ_ q e => Some (HRot RZ_ (g, e) q [])
    | BSwap _ _ => match rev qs with [x; y] => Some (HSwap x y) | _ => None end
    | BCtrl [c] (BPrim PX _) => Some (HGate PX (h_target [c] qs) (h_control [c] qs))
    | BCtrl cs (BPrim PZ _) => Some (HGate PZ (h_target cs qs) (h_control cs qs))
    | BPCtrl cs (BRot RX_ _ e) => Some (HRot RX_ (g, e) (h_target cs qs) (h_control cs qs))
    | BPCtrl cs (BRot RY_ _ e) => Some (HRot RY_ (g, e) (h_target cs qs) (h_control cs qs))
    | BPCtrl cs (BRot RZ_ _ e) => Some (HRot RZ_ (g, e) (h_target cs qs) (h_control cs qs))
    | BEvo gen t => h_evolution b gen t
    | _ => None
    end.

  (** config.py:18-30 [default_passes] and transpile/transpile.py:75: the last pass is applied first. *)
  Definition h_passes (b : block) : option block :=
    obind (scale_prims set_iter None b) (fun y => obind (flatten set_iter [KChain; KKron; KAdd] y) (rebuild set_iter)).
  (** backend.py:52-63 [Backend.circuit] *)
  Definition hq_circuit (b : block) : option hop := obind (h_passes b) hconv.
  (** backend.py:65-72 [Backend.observable]; 125-132 of convert_ops.py wraps the operation in an Observable. *)
  Definition hq_observable (b : block) : option hop :=
    obind (obind (scale_prims set_iter None b) (flatten set_iter [KChain; KKron; KAdd])) hconv.
End Convert.

(** What the operations of horqrux do (trusted).  [gate_level]: the kind of keys of the dictionary of values; [None]: KeyError. *)
Section Native.
  Variable gate_level : bool.
  Variable rho : env.
  Definition hval (k : hkey) : option C := if Bool.eqb (fst k) gate_level then Some (ev rho (snd k)) else None.
  Definition hangle (k : hkey) : option R := omap fst (hval k).
  Fixpoint hden (o : hop) : option Op :=
    match o with
    | HGate p t cs => Some (ctrlop cs (gate1 t (prim_mat p)))
    | HRot r k t cs => omap (fun a => ctrlop cs (gate1 t (rot_mat r a))) (hangle k)
    | HSwap a b => Some (swapop a b)
    | HSeq os => omap (fold_right seqop idop) (osequence (map hden os))
    | HAdd os => omap (fold_right addop zeroop) (osequence (map hden os))
    | HScale o k => obind (hden o) (fun A => omap (fun c => scaleop c A) (hval k))
    | HEvo qs h k =>
        (* convert_ops.py:167-176: expm(H * (-1j * t)) applied to the qubits of the support, in their order *)
        obind (h rho) (fun m => omap (fun t => gate qs (nmat (ent (t_exp (t_scale (- Ci * RtoC t) m))))) (hangle k))
    end.
End Native.

(** * Running *)
(** A jax array: its shape and its entries in row-major order. *)
Record jarr := mkJ { jshape : list nat; jdata : list C }.
Definition vol (s : list nat) : nat := fold_right Nat.mul 1%nat s.
(** reshape *)
Definition jreshape (a : jarr) (s : list nat) : option jarr :=
  if Nat.eqb (vol s) (length (jdata a)) then Some (mkJ s (jdata a)) else None.
(** jax_utils.py:50-52 [horqify]; [None]: the shape has no second entry, or the sizes do not match. *)
Definition horqify (a : jarr) : option jarr :=
  match jshape a with
  | _ :: d :: _ => jreshape a (repeat 2%nat (Nat.log2 d))
  | _ => None
  end.
(** jax_utils.py:45-47 [unhorqify] *)
Definition unhorqify (a : jarr) : jarr := mkJ [length (jdata a)] (jdata a).
(** horqrux's zero_state *)
Definition zero_state (n : nat) : jarr := mkJ (repeat 2%nat n) (RtoC 1 :: repeat (RtoC 0) (2 ^ n - 1)).

(** The state held by an array with one axis per qubit, and the array of a state. *)
Definition jstate (n : nat) (v : list C) : St := fun x => nth (bits_to_nat (map x (seq 0 n))) v (RtoC 0).
Definition jarray (n : nat) (psi : St) : list C := map (amps n psi) (bits n).
Definition shape_eqb (a b : list nat) : bool := if list_eq_dec Nat.eq_dec a b then true else false.
(** A native circuit applied to an array; it needs one axis of size two per qubit. *)
Definition native_apply (n : nat) (A : Op) (a : jarr) : option jarr :=
  if shape_eqb (jshape a) (repeat 2%nat n) then Some (mkJ (repeat 2%nat n) (jarray n (A (jstate n (jdata a))))) else None.
(** A native observable applied to an array: the inner product of the state with its image. *)
Definition native_expectation (n : nat) (O : Op) (a : jarr) : option R :=
  if shape_eqb (jshape a) (repeat 2%nat n)
  then Some (fst (expval n (jstate n (jdata a)) O)) else None.

(** backend.py:105: int(f"{num:0{n}b}"[::-1], 2) *)
Definition reversed_index (n k : nat) : option nat := omap Z.to_nat (py_int2 (rev (py_format (Z.of_nat k) n))).
(** backend.py:102-106: the amplitudes permuted for little endian *)
Definition permuted (n : nat) (a : jarr) : option jarr :=
  obind (jreshape a [1%nat; (2 ^ n)%nat]) (fun s =>
  obind (osequence (map (reversed_index n) (seq 0 (2 ^ n)))) (fun ind =>
  Some (mkJ [1%nat; (2 ^ n)%nat] (map (fun k => nth k (jdata s) (RtoC 0)) ind)))).

Section Run.
  Context {K X : Type}.
  (** number of qubits of the circuit; the native circuit and observables as functions of the values of one sample *)
  Variable n : nat.
  Variable circuit : list (K * X) -> option Op.

  (** backend.py:74-109 [run].  Simplification: a state on more qubits than the circuit is refused. *)
  Definition hq_run (values : list (K * X)) (state : option jarr) (e : M_Basis.endian) (horqify_state unhorqify_state : bool) : option jarr :=
    let start := match state with None => Some (zero_state n) | Some s => if horqify_state then horqify s else Some s end in
    obind start (fun s =>
    obind (circuit values) (fun A =>
    obind (native_apply n A s) (fun s =>
    obind (match e with Big => Some s | Little => permuted n s end) (fun s =>
    Some (if unhorqify_state then unhorqify s else s))))).

  (** backend.py:145-158 [_expectation] *)
  Definition hq_expectation1 (obs : list (list (K * X) -> option Op)) (state : option jarr) (e : M_Basis.endian) (values : list (K * X)) : option (list R) :=
    obind (hq_run values state e true false) (fun s =>
    osequence (map (fun o => obind (o values) (fun O => native_expectation n O s)) obs)).

  (** jax_utils.py:55-63 [uniform_batchsize]; [v.repeat(m)] repeats every element m times. *)
  Definition uniform_batchsize (d : list (K * list X)) : list (K * list X) :=
    let m := list_max (map (fun kv => length (snd kv)) d) in
    map (fun kv => (fst kv, if Nat.eqb (length (snd kv)) m then snd kv else flat_map (fun x => repeat x m) (snd kv))) d.

  (** Values with the same name and index. *)
  Definition sample_at (i : nat) (d : list (K * list X)) : option (list (K * X)) :=
    osequence (map (fun kv => omap (fun x => (fst kv, x)) (nth_error (snd kv) i)) d).
  (** jax.vmap over the first axis of all values, which must have the same size. *)
  Definition vmap {A} (f : list (K * X) -> option A) (d : list (K * list X)) : option (list A) :=
    match d with
    | [] => None
    | (_, v) :: _ =>
        if forallb (fun kv => Nat.eqb (length (snd kv)) (length v)) d
        then osequence (map (fun i => obind (sample_at i d) f) (seq 0 (length v))) else None
    end.

  (** The value of an expectation call: a table with one row per sample, or a single number. *)
  Inductive hres := Table (rows : list (list R)) | Single (x : R).

  (** backend.py:111-172 [expectation] with a list of observables.  Values are one-dimensional arrays, so with [batch_size] 1
      the whole array is passed on: its only element.  [None]: an exception, in particular max() of no values (line 142).
      The arguments measurement, noise and mitigation are not used by the code. *)
  Definition hq_expectation {M N T : Type} (obs : list (list (K * X) -> option Op)) (values : list (K * list X)) (state : option jarr)
      (measurement : M) (noise : N) (mitigation : T) (e : M_Basis.endian) : option hres :=
    match values with
    | [] => None
    | _ =>
        let batch_size := list_max (map (fun kv => length (snd kv)) values) in
        let f := hq_expectation1 obs state e in
        obind (if Nat.ltb 1 batch_size then vmap f (uniform_batchsize values)
               else obind (sample_at 0 values) (fun v => omap (fun r => [r]) (f v))) (fun rows =>
        match rows with
        | [[x]] => Some (Single x)
        | _ => if Nat.ltb 1 (vol [batch_size; length obs]) then Some (Table rows) else None
        end)
    end.

  (** backend.py:174-229 [sample].  [draw p s]: what jax.random.choice returns for the subkeys of PRNGKey(0), which is the same key
      at every call, with probabilities p and s shots; noise and mitigation are not used. *)
  Definition hq_sample {N T : Type} (draw : list R -> nat -> list nat) (values : list (K * X)) (n_shots : nat) (state : option jarr)
      (noise : N) (mitigation : T) (e : M_Basis.endian) : option (list (option (list ch) * nat)) :=
    if Nat.ltb n_shots 1 then None
    else obind (hq_run values state Big true false) (fun wf =>
      let probs := map (fun z => Cmod (z * z)) (jdata wf) in
      let c := bincount (draw probs n_shots) in
      Some (map (fun kc => (int_to_basis (Z.of_nat (fst kc)) (Some (Z.of_nat n)) e, snd kc))
             (filter (fun kc => Nat.ltb 0 (snd kc)) (combine (seq 0 (length c)) c)))).
End Run.
