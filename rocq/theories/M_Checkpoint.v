(** Model of checkpoint files: qadence/ml_tools/callbacks/saveload.py:17-175.  File names are lists of characters. *)
From Coq Require Import List Arith Bool Ascii String.
Import ListNotations.
Open Scope list_scope.

Definition str := list ascii.
Definition s_ (s : string) : str := list_ascii_of_string s.

(** *** String primitives of Python *)
Fixpoint str_eqb (a b : str) : bool :=
  match a, b with [], [] => true | x :: a', y :: b' => Ascii.eqb x y && str_eqb a' b' | _, _ => false end.
Fixpoint strip_prefix (p l : str) : option str :=
  match p, l with [], _ => Some l | x :: p', y :: l' => if Ascii.eqb x y then strip_prefix p' l' else None | _ :: _, [] => None end.
Definition starts_with (p l : str) : bool := match strip_prefix p l with Some _ => true | None => false end.
(** [p in l] *)
Fixpoint contains (p l : str) : bool := starts_with p l || match l with [] => false | _ :: r => contains p r end.
(** [l.endswith(p)] *)
Definition ends_with (p l : str) : bool := starts_with (rev p) (rev l).
Definition is_digit (c : ascii) : bool := Nat.leb 48 (nat_of_ascii c) && Nat.leb (nat_of_ascii c) 57.
Fixpoint span (f : ascii -> bool) (l : str) : str * str :=
  match l with [] => ([], []) | c :: r => if f c then let '(a, b) := span f r in (c :: a, b) else ([], l) end.
(** int(...) of a string of digits *)
Definition digit_val (c : ascii) : nat := nat_of_ascii c - 48.
Definition parse_int (l : str) : nat := fold_left (fun acc c => 10 * acc + digit_val c) l 0.
(** decimal digits of a non-negative integer, and f"{n:03n}" (in the default locale): at least three characters, padded with zeros *)
Fixpoint digits (fuel n : nat) : str :=
  let d := ascii_of_nat (48 + n mod 10) in
  match fuel with O => [d] | S f => if Nat.ltb n 10 then [d] else digits f (n / 10) ++ [d] end.
Definition format03 (n : nat) : str := let l := digits n n in repeat "0"%char (3 - List.length l) ++ l.

(** The regular expression [.*_(\d+)<suffix>.pt$] searched in a file name (without newlines): the unescaped dot before "pt" stands for any character, the group is the maximal
    run of digits before the suffix, which must follow an underscore.  The suffixes used contain no special characters. *)
Definition regex_group (suffix name : str) : option str :=
  match rev name with
  | t :: p :: _ :: r =>
      if Ascii.eqb t "t" && Ascii.eqb p "p" then
        match strip_prefix (rev suffix) r with
        | Some r' => match span is_digit r' with
                     | (c :: ds, u :: _) => if Ascii.eqb u "_" then Some (rev (c :: ds)) else None
                     | _ => None end
        | None => None end
      else None
  | _ => None
  end.

(** saveload.py:17-42 [get_latest_checkpoint_name] for the listing [listing] of the folder (os.listdir: arbitrary order) and a device without index.
    The empty name is the result when nothing is found. *)
Definition match_index (device name : str) : option nat :=
  match regex_group [] name, regex_group (s_ "_device_" ++ device) name with
  | Some g, _ => Some (parse_int g)
  | None, Some g => Some (parse_int g)
  | None, None => None
  end.
(** the loop: (max_index, file); [None] is max_index = -1 *)
Fixpoint latest_loop (device : str) (files : list str) (best : option nat * str) : option nat * str :=
  match files with
  | [] => best
  | f :: r => latest_loop device r (match match_index device f with
      | Some i => match fst best with None => (Some i, f) | Some m => if Nat.ltb m i then (Some i, f) else best end
      | None => best end)
  end.
Definition get_latest_checkpoint_name (listing : list str) (type device : str) : str :=
  let files := filter (fun f => ends_with (s_ ".pt") f && contains type f) listing in
  match files with
  | [f] => f
  | _ => snd (latest_loop device files (None, []))
  end.

(** *** The folder.  A file holds the iteration it was written for and an identifier of the saved state, or is unreadable (a crash while torch.save was writing). *)
Inductive iter := Num (n : nat) | Label (s : str).
Inductive content := Saved (i : iter) (state : nat) | Corrupt.
Definition folder := list (str * content).
Definition iter_string (i : iter) : str := match i with Num n => format03 n | Label s => s end.
(** saveload.py:86-98: the two file names *)
Definition ckpt_name (kind cls : str) (i : iter) (device : str) : str :=
  kind ++ s_ "_" ++ cls ++ s_ "_ckpt_" ++ iter_string i ++ s_ "_device_" ++ device ++ s_ ".pt".
Definition save (f : folder) (name : str) (c : content) : folder := filter (fun nc => negb (str_eqb (fst nc) name)) f ++ [(name, c)].
Fixpoint find (f : folder) (name : str) : option content :=
  match f with [] => None | (n, c) :: r => if str_eqb n name then Some c else find r name end.

(** saveload.py:63-118 [write_checkpoint] as the list of its file writes: first the model, then the optimiser. *)
Record job := { j_iter : iter; j_model : nat; j_opt : nat }.
Section Setup.
  Variables model_cls opt_cls device : str.
  Definition writes (j : job) : list (str * content) :=
    [(ckpt_name (s_ "model") model_cls (j_iter j) device, Saved (j_iter j) (j_model j));
     (ckpt_name (s_ "opt") opt_cls (j_iter j) device, Saved (j_iter j) (j_opt j))].
  Definition do_writes (f : folder) (ws : list (str * content)) : folder := fold_left (fun f w => save f (fst w) (snd w)) ws f.
  (** The folder after the jobs, when the process dies after [k] file writes. *)
  Definition after_crash (jobs : list job) (k : nat) : folder := do_writes [] (firstn k (flat_map writes jobs)).

  (** saveload.py:121-175 [load_model], [load_optimizer]: what is loaded from the folder when it is listed in the given order.
      A missing or unreadable model file is only logged: nothing is loaded and the iteration is 0. *)
  Definition load_model (f : folder) (listing : list str) : option nat * iter :=
    match find f (get_latest_checkpoint_name listing (s_ "model") device) with
    | Some (Saved i st) => (Some st, i)
    | _ => (None, Num 0)
    end.
  Definition load_opt (f : folder) (listing : list str) : option (nat * iter) :=
    match find f (get_latest_checkpoint_name listing (s_ "opt") device) with Some (Saved i st) => Some (st, i) | _ => None end.
End Setup.
