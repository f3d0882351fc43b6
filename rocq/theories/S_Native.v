(** What pyqtorch's operations do: the external specification of the simulator used by the default backend.
    Each operation has its textbook matrix; Sequence and Merge apply the operations one after the other, Add sums them, Scale
    multiplies, HamiltonianEvolution of a constant generator is the matrix exponential of -i t H.  [None]: a value is missing
    from the dictionary passed to [run] (KeyError). *)
From Coq Require Import String Reals List Arith Bool ZArith.
From Coquelicot Require Import Coquelicot.
From Coq Require Import List.
From Verif Require Import S_Ops M_Block S_Den M_Tensor M_Transpile M_Convert.
Import ListNotations.
Open Scope string_scope.
Open Scope list_scope.
Open Scope R_scope.
Open Scope C_scope.

Section Native.
  (** The functions a ConcretizedCallable can call, by name. *)
  Variable ap : string -> list C -> option C.
  (** Evaluation of a ConcretizedCallable with the entries [look] of the dictionary. *)
  Fixpoint pc_eval (look : string -> option C) (p : pc) : option C :=
    match p with
    | PCst x => Some (RtoC x)
    | PKey s => look s
    | PCall f args => obind (osequence (map (pc_eval look) args)) (ap f)
    end.

  (** pyqtorch's ODE solver for time-dependent generators (its result is not specified here). *)
  Variable solve : pyqop -> Op.
  (** [gate]: the dictionary has one entry per gate parameter (uuid); otherwise one per expression, and one per name in [known]. *)
  Variable gate_level : bool.
  Variable known : string -> bool.
  Variable rho : env.

  Definition entry (s : string) : option C := if known s then Some (RtoC (rho s)) else None.
  Definition pv_eval (v : pv) : option C :=
    match v with
    | VConst c => Some c
    | VKey g e => if Bool.eqb g gate_level then Some (ev rho e) else None
    | VCall p => if gate_level then None else pc_eval entry p
    end.
  Definition angle (v : pv) : option R := omap fst (pv_eval v).

  Fixpoint qden (o : pyqop) : option Op :=
    match o with
    | QPrim p q => Some (gate1 q (prim_mat p))
    | QN q => Some (gate1 q (mat2 0 0 0 1))
    | QProj kt br qs => Some (gate qs (ketbra kt br))
    | QRot r q v => omap (fun t => gate1 q (rot_mat r t)) (angle v)
    | QU q x y z =>
        obind (angle x) (fun phi => obind (angle y) (fun theta => omap (fun omega =>
          seqop (gate1 q (rot_mat RZ_ phi)) (seqop (gate1 q (rot_mat RY_ theta)) (gate1 q (rot_mat RZ_ omega)))) (angle z)))
    | QSwap a b => Some (swapop a b)
    | QCSwap cs [a; b] => Some (ctrlop cs (swapop a b))
    | QCSwap _ _ => None
    | QCtrl p cs t => Some (ctrlop cs (gate1 t (prim_mat p)))
    | QPCtrl r cs t v => omap (fun a => ctrlop cs (gate1 t (rot_mat r a))) (angle v)
    | QScale o v => obind (qden o) (fun A => omap (fun c => scaleop c A) (pv_eval v))
    | QAdd os => omap (fold_right addop zeroop) (osequence (map qden os))
    | QSeq os | QMerge os => omap (fold_right seqop idop) (osequence (map qden os))
    | QMat m qs => Some (gate qs (nmat m))
    | QEvo false qs gen t =>
        obind (qden gen) (fun H => omap (fun t => gate qs (bexp (length qs) (fun r c => - Ci * RtoC t * matof qs H r c))) (angle t))
    | QEvo true qs gen t => obind (qden gen) (fun H => omap (fun _ => solve o) (angle t))
    end.
End Native.
