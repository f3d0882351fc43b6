(** Noise on gates over histories of calls: qadence/transpile/noise.py, apply_fn.py and the noise handling of
    qadence/backends/pyqtorch/backend.py and convert_ops.py.

    Blocks and noise handlers are objects with identity, because [set_noise] assigns to the objects a circuit is
    made of and a handler can be extended after it was given to a gate.  A world holds the leaf blocks, the noise
    handlers and the converted circuits made so far; the calls a user can make are steps on worlds.
    Simplifications: what a circuit executes is recorded as the sequence of its native leaf operations (which class
    of gate, which digital noise), not with the shape of the composition around them; a scaled block contains one
    gate; analog blocks and registers with a device are left out, so the first default pass does nothing
    (analog/parse_analog.py:49,62-63).  Whether a handler is valid is the subject of M_Noise.v. *)
From Coq Require Import List Arith Bool.
Import ListNotations.

(** types.py:463-491: the sources of noise of a handler, with what identifies a source and its options. *)
Inductive source : Type := SDigital (k : nat) | SAnalog (k : nat) | SReadout (k : nat).

(** noise/protocols.py:148-157 [filter] for DIGITAL and READOUT. *)
Fixpoint digital (n : list source) : list nat :=
  match n with [] => [] | SDigital k :: r => k :: digital r | _ :: r => digital r end.
Fixpoint readouts (n : list source) : list nat :=
  match n with [] => [] | SReadout k :: r => k :: readouts r | _ :: r => readouts r end.

(** Leaf blocks (objects).  [Gate]: the operations whose native counterpart is given the noise (convert_ops.py:272,
    285-293, 298-345).  [Silent]: those whose native counterpart is not (TimeEvolutionBlock lines 226-269, and Zero,
    line 296).  [Scaled i]: ScaleBlock around the object [i] (lines 210-224). *)
Inductive leaf_kind : Type := Gate | Silent | Scaled (inner : nat).
Record leaf : Type := { l_class : nat; l_kind : leaf_kind; l_noise : option nat }.
(** Composite blocks: chain, kron and add of leaves and composites (their own identity plays no role). *)
Inductive tree : Type := Leaf (i : nat) | Comp (ts : list tree).

(** What the native circuit contains for a leaf: the class of the gate and its digital noise. *)
Inductive native_op : Type := NGate (cls : nat) (noise : list nat) | NScaled (cls : nat) (noise : list nat).
(** pyqtorch/backend.py:125-141 [ConvertedCircuit]: native operations, readout noise and dropout of the native
    circuit; the abstract (transpiled) circuit. *)
Record converted : Type := {
  c_abstract : tree;
  c_program : list native_op;
  c_readout : option nat;
  c_dropout : bool
}.
Record world : Type := { leaves : list leaf; handlers : list (list source); circuits : list converted }.
Definition empty : world := {| leaves := []; handlers := []; circuits := [] |}.

Fixpoint replace {A : Type} (l : list A) (i : nat) (a : A) : list A :=
  match l, i with [] , _ => [] | _ :: r, O => a :: r | x :: r, S j => x :: replace r j a end.

(** The objects [apply_fn_to_blocks] applies its function to: apply_fn.py:30-38. *)
Fixpoint leaf_ids (t : tree) : list nat := match t with Leaf i => [i] | Comp ts => flat_map leaf_ids ts end.

(** transpile/noise.py:11-23 [_set_noise]; [cls] is the optional target class. *)
Definition set_leaf (noise : option nat) (cls : option nat) (ls : list leaf) (i : nat) : list leaf :=
  match nth_error ls i with
  | None => ls
  | Some b =>
      let hit := match cls with None => true | Some k => Nat.eqb k (l_class b) end in
      if hit then replace ls i {| l_class := l_class b; l_kind := l_kind b; l_noise := noise |} else ls
  end.
(** transpile/noise.py:26-53 [set_noise]. *)
Definition set_noise (t : tree) (noise cls : option nat) (ls : list leaf) : list leaf :=
  fold_left (set_leaf noise cls) (leaf_ids t) ls.

(** convert_ops.py:206-208, 354-372: the digital noise of a block. *)
Definition noise_of (hs : list (list source)) (b : leaf) : list nat :=
  match l_noise b with None => [] | Some h => digital (nth h hs []) end.
(** convert_ops.py:210-345 [convert_block] of a leaf. *)
Definition convert_plain (hs : list (list source)) (b : leaf) : list nat :=
  match l_kind b with Gate => noise_of hs b | _ => [] end.
Definition convert_leaf (hs : list (list source)) (ls : list leaf) (i : nat) : list native_op :=
  match nth_error ls i with
  | None => []
  | Some b => match l_kind b with
              | Scaled j => match nth_error ls j with None => [] | Some g => [NScaled (l_class g) (convert_plain hs g)] end
              | _ => [NGate (l_class b) (convert_plain hs b)]
              end
  end.
(** convert_ops.py:273-281 for composites. *)
Definition convert_block (hs : list (list source)) (ls : list leaf) (t : tree) : list native_op :=
  flat_map (convert_leaf hs ls) (leaf_ids t).
(** convert_ops.py:375-393 [convert_readout_noise]. *)
Definition convert_readout (n : list source) : option nat := hd_error (readouts n).

(** The default passes, config.py:23-41 (in the order transpile/transpile.py:79 applies them): leaves are kept as they
    are; scaled leaves are rebuilt (transpile/block.py:256-261) and then deep-copied with the gate inside
    (transpile/flatten.py:45-48). *)
Fixpoint passes (ls : list leaf) (t : tree) : list leaf * tree :=
  match t with
  | Leaf i => match nth_error ls i with
              | Some {| l_class := c; l_kind := Scaled j; l_noise := _ |} =>
                  match nth_error ls j with
                  | None => (ls, t)
                  | Some g => (ls ++ [g; {| l_class := c; l_kind := Scaled (length ls); l_noise := None |}], Leaf (S (length ls)))
                  end
              | _ => (ls, t)
              end
  | Comp ts => let r := (fix go ls ts := match ts with
                         | [] => (ls, [])
                         | t :: r => let (ls1, t') := passes ls t in let (ls2, r') := go ls1 r in (ls2, t' :: r')
                         end) ls ts in (fst r, Comp (snd r))
  end.

(** pyqtorch/backend.py:101-141 [Backend.circuit]: [cfg] is config.noise, [dropout] whether
    config.dropout_probability is not 0. *)
Definition make (w : world) (t : tree) (cfg : option nat) (dropout : bool) : world :=
  let (ls1, t') := passes (leaves w) t in
  let ls2 := match cfg with None => ls1 | Some h => set_noise t' (Some h) None ls1 end in
  {| leaves := ls2; handlers := handlers w;
     circuits := circuits w ++ [ {| c_abstract := t';
                                    c_program := convert_block (handlers w) ls2 t';
                                    c_readout := match cfg with None => None | Some h => convert_readout (nth h (handlers w) []) end;
                                    c_dropout := dropout |} ] |}.

(** pyqtorch/backend.py:42-79 [set_block_and_readout_noises] with [set_noise_abstract_to_native] and
    [set_readout_noise], called by sample (line 352) and expectation (lines 194, 237). *)
Definition apply_noise (w : world) (c : nat) (noise : option nat) : world :=
  match noise, nth_error (circuits w) c with
  | Some h, Some k =>
      let ls := set_noise (c_abstract k) (Some h) None (leaves w) in
      {| leaves := ls; handlers := handlers w;
         circuits := replace (circuits w) c
           {| c_abstract := c_abstract k;
              c_program := convert_block (handlers w) ls (c_abstract k);
              c_readout := match convert_readout (nth h (handlers w) []) with Some r => Some r | None => c_readout k end;
              c_dropout := false |} |}
  | _, _ => w
  end.

(** What a user can do.  [Construct]: a gate with its noise argument; [ScaleIt]: 2 * gate; [Handler]: a NoiseHandler;
    [Append]: handler.append (noise/protocols.py:103-123); [SetNoise]: transpile.set_noise; [Make]: backend.circuit;
    [Call]: backend.sample or backend.expectation with the given noise argument; [Run]: backend.run. *)
Inductive step : Type :=
| Construct (cls : nat) (silent : bool) (noise : option nat)
| ScaleIt (cls i : nat)
| Handler (n : list source)
| Append (h : nat) (n : list source)
| SetNoise (t : tree) (noise cls : option nat)
| Make (t : tree) (cfg : option nat) (dropout : bool)
| Call (c : nat) (noise : option nat)
| Run (c : nat).
Definition with_leaves (w : world) (ls : list leaf) : world := {| leaves := ls; handlers := handlers w; circuits := circuits w |}.
Definition with_handlers (w : world) (hs : list (list source)) : world := {| leaves := leaves w; handlers := hs; circuits := circuits w |}.
Definition do (w : world) (s : step) : world :=
  match s with
  | Construct k silent n => with_leaves w (leaves w ++ [ {| l_class := k; l_kind := if silent then Silent else Gate; l_noise := n |} ])
  | ScaleIt k i => with_leaves w (leaves w ++ [ {| l_class := k; l_kind := Scaled i; l_noise := None |} ])
  | Handler n => with_handlers w (handlers w ++ [n])
  | Append h n => with_handlers w (replace (handlers w) h (nth h (handlers w) [] ++ n))
  | SetNoise t n k => with_leaves w (set_noise t n k (leaves w))
  | Make t cfg d => make w t cfg d
  | Call c n => apply_noise w c n
  | Run _ => w
  end.
Definition history (w : world) (h : list step) : world := fold_left do h w.
(** What a run, sample or expectation of circuit [c] executes. *)
Definition executes (w : world) (c : nat) : option (list native_op * option nat * bool) :=
  option_map (fun k => (c_program k, c_readout k, c_dropout k)) (nth_error (circuits w) c).
