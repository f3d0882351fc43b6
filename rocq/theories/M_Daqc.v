(** Model of qadence/constructors/daqc/{daqc,gen_parser,utils}.py.  Floating-point numbers are modelled as reals. *)
From Coq Require Import String Reals ZArith List Arith Bool.
From Coquelicot Require Import Coquelicot.
From Coq Require Import List.
From Verif Require Import S_Ops M_QubitSupport M_Block M_BlockOps M_Tensor M_Transpile M_Names M_Hamiltonians M_Pauli.
Import ListNotations.
Open Scope R_scope.
Open Scope nat_scope.

(** types.py GenDAQC. *)
Inductive gen_type := GZZ | GNN.

(** daqc/utils.py:15-17 [_ix_map]; [0.5 * a * (a + 1)] is always a whole number. *)
Definition ix_map (n a b : nat) : Z := (Z.of_nat n * (Z.of_nat a - 1) - Z.of_nat (a * (a + 1) / 2) + Z.of_nat b)%Z.
(** The position of entry [z] of a tensor of length [len]: negative positions count from the end; [None] is IndexError. *)
Definition tpos (len : nat) (z : Z) : option nat :=
  if (0 <=? z)%Z then (if (z <? Z.of_nat len)%Z then Some (Z.to_nat z) else None)
  else if (0 <=? z + Z.of_nat len)%Z then Some (Z.to_nat (z + Z.of_nat len)) else None.
(** daqc/utils.py:22 and gen_parser.py:30: [int(0.5 * n * (n - 1))]. *)
Definition flat_size (n : nat) : nat := n * (n - 1) / 2.

(** daqc/utils.py:10-12 and 24-25: [_k_d], [matrix_M_ix]. *)
Definition k_d (a b : nat) : nat := if Nat.eqb a b then 1 else 0.
Definition matrix_M_ix (j k n m : nat) : R := ((-1) ^ (k_d n j + k_d n k + k_d m j + k_d m k))%R.
(** The nested loops [for m in range(2, n + 1): for n in range(1, m)] (utils.py:28-31, daqc.py:187-188); pairs (n, m). *)
Definition loop_pairs (n : nat) : list (nat * nat) := flat_map (fun m => map (fun a => (a, m)) (seq 1 (m - 1))) (seq 2 (n - 1)).
(** daqc/utils.py:20-35 [_build_matrix_M]: assignments to a matrix of zeros, in the order of the loops. *)
Definition set_entry (M : nat -> nat -> R) (a b : nat) (v : R) : nat -> nat -> R :=
  fun i j => if Nat.eqb i a && Nat.eqb j b then v else M i j.
Definition build_matrix_M (n : nat) : option (nat -> nat -> R) :=
  fold_left (fun acc jk => fold_left (fun acc nm =>
      match acc, tpos (flat_size n) (ix_map n (fst nm) (snd nm) - 1), tpos (flat_size n) (ix_map n (fst jk) (snd jk) - 1) with
      | Some M, Some al, Some be => Some (set_entry M al be (matrix_M_ix (fst jk) (snd jk) (fst nm) (snd nm)))
      | _, _, _ => None
      end) (loop_pairs n) acc) (loop_pairs n) (Some (fun _ _ => 0%R)).

(** [l[i] += v]. *)
Fixpoint bump (l : list R) (i : nat) (v : R) : list R :=
  match l, i with
  | [], _ => []
  | x :: r, O => (x + v)%R :: r
  | x :: r, S i' => x :: bump r i' v
  end.
Definition bump_mat (M : nat -> nat -> R) (j k : nat) (v : R) : nat -> nat -> R := set_entry M j k (M j k + v)%R.

Section D.
  Variable set_iter : list nat -> list nat.
  (** The values [evaluate] gives to the parameters left in a compound expression (parameters.py:233-283). *)
  Variable rho : env.

  (** gen_parser.py:49-58: the contents of a KronBlock; [None] is ValueError. *)
  Fixpoint paulis_types (bs : list block) : option (list gen_type) :=
    match bs with
    | [] => Some []
    | BPrim PZ _ :: r => option_map (cons GZZ) (paulis_types r)
    | BPrim (PN _) _ :: r => option_map (cons GNN) (paulis_types r)
    | _ => None
    end.
  Record pstate := PS_ { p_list : list R; p_mat : nat -> nat -> R; p_types : list gen_type }.
  (** gen_parser.py:38-83: one pass of the loop.  [gen_type_Z]/[gen_type_N] are kept as one list of types, of which the two flag
      lists are the two indicator lists.  [None] is TypeError, ValueError or IndexError; a complex strength raises too. *)
  Definition parse_term (n : nat) (zero_tol : R) (s : pstate) (bc : block * expr) : option pstate :=
    match snd bc with
    | EVar _ => None
    | e =>
        match fst bc with
        | BKron bs =>
            match paulis_types bs, locals (bsup set_iter (BKron bs)) with
            | Some ts, [j; k] =>
                if Req_EM_T (snd (ev rho e)) 0 then
                  match tpos (flat_size n) (ix_map n (j + 1) (k + 1) - 1) with
                  | Some beta =>
                      if (j <? n) && (k <? n)
                      then Some (PS_ (bump (p_list s) beta (fst (ev rho e)))
                                     (bump_mat (bump_mat (p_mat s) j k (fst (ev rho e))) k j (fst (ev rho e)))
                                     (p_types s ++ ts))
                      else None
                  | None => None
                  end
                else None
            | _, _ => None
            end
        | _ => if Rlt_dec (Cmod (ev rho e)) zero_tol then Some s else None
        end
    end.
  Definition is_zz (t : gen_type) : bool := match t with GZZ => true | GNN => false end.
  (** gen_parser.py:85-96. *)
  Definition type_of (ts : list gen_type) : option gen_type :=
    match ts with
    | [] => None
    | _ => if forallb is_zz ts then Some GZZ else if forallb (fun t => negb (is_zz t)) ts then Some GNN else None
    end.
  (** gen_parser.py:18-100 [_parse_generator]. *)
  Definition parse_generator (n : nat) (g : block) (zero_tol : R) : option (list R * (nat -> nat -> R) * gen_type) :=
    match fold_left (fun acc bc => match acc with Some s => parse_term n zero_tol s bc | None => None end)
            (unroll_block_with_scaling g) (Some (PS_ (repeat 0%R (flat_size n)) (fun _ _ => 0%R) [])) with
    | Some s =>
        match type_of (p_types s) with
        | Some ty => Some (map (fun v => if Req_EM_T v 0 then zero_tol else v) (p_list s), p_mat s, ty)
        | None => None
        end
    | None => None
    end.
  (** gen_parser.py:103-116 [_check_compatibility]; [false] is ValueError. *)
  Definition check_compatibility (t b : list R) (zero_tol : R) : bool :=
    forallb (fun gg => negb ((if Rlt_dec zero_tol (Rabs (fst gg)) then true else false) && (if Rle_dec (Rabs (snd gg)) zero_tol then true else false))) (combine t b).

  Definition num (r : R) : expr := ECst (RtoC r).
  (** [mat.sum()] and [mat.sum(0)[i]]. *)
  Definition lsum (l : list R) : R := fold_right Rplus 0%R l.
  Definition mat_total (n : nat) (M : nat -> nat -> R) : R := lsum (map (fun j => lsum (map (M j) (seq 0 n))) (seq 0 n)).
  Definition mat_column (n : nat) (M : nat -> nat -> R) (i : nat) : R := lsum (map (fun j => M j i) (seq 0 n)).
  (** daqc.py:236-250 [_nn_phase_and_detunings]; [None] is the error of kron on an empty list. *)
  Definition nn_phase_and_detunings (n : nat) (M : nat -> nat -> R) : option (block * block) :=
    option_map (fun id => (op_scale id (num (mat_total n M / 8)),
                           BAdd (map (fun i => op_scale (BPrim (PN true) i) (num (-1 * (mat_column n M i / 2)))) (seq 0 n))))
      (mk_kron set_iter (map (BPrim PI_) (seq 0 n))).

  (** torch.linalg.solve on a matrix of the given size; [None] is the error raised on a singular matrix. *)
  Variable solve : nat -> (nat -> nat -> R) -> list R -> option (list R).

  (** daqc.py:185-209: the slices. *)
  Fixpoint slices (n : nat) (gen_build : block) (det : option block) (ts : list R) (zero_tol : R) (ps : list (nat * nat)) : option (list block) :=
    match ps with
    | [] => Some []
    | (a, m) :: r =>
        match tpos (flat_size n) (ix_map n a m - 1), slices n gen_build det ts zero_tol r with
        | Some al, Some rest =>
            let t := nth al ts 0%R in
            if Rlt_dec zero_tol (Rabs t) then
              match mk_kron set_iter [BPrim PX (a - 1); BPrim PX (m - 1)] with
              | Some xg =>
                  Some (match det with
                        | Some h => BChain [xg; BEvo h (num t); BEvo gen_build (num t); xg]
                        | None => BChain [xg; BEvo gen_build (num t); xg]
                        end :: rest)
              | None => None
              end
            else Some rest
        | _, _ => None
        end
    end.

  (** daqc.py:19-233 [daqc_transform]; [sdaqc] says whether the strategy is sDAQC.  [None]: an exception. *)
  Definition daqc_transform (n : nat) (gen_target : block) (t_f : R) (gen_build : option block) (zero_tol : R) (sdaqc ignore_global_phases : bool)
    : option block :=
    if negb sdaqc then None else
    if Nat.eqb n 4 then None else
    obind (match gen_build with
           | Some g => Some g
           | None => hamiltonian_factory set_iter block_is_qubit_hamiltonian (alltoall n) (Some INN) None SNone SNone None false
           end) (fun gen_build =>
    if negb (block_is_qubit_hamiltonian gen_target) || negb (block_is_qubit_hamiltonian gen_build) then None else
    obind (parse_generator n gen_target 0) (fun pt =>
    obind (parse_generator n gen_build zero_tol) (fun pb =>
    let '(g_target, mat_target, target_type) := pt in
    let '(g_build, mat_build, build_type) := pb in
    obind (match build_type with GNN => option_map Some (nn_phase_and_detunings n mat_build) | GZZ => Some None end) (fun aux_build =>
    obind (match target_type with GNN => option_map Some (nn_phase_and_detunings n mat_target) | GZZ => Some None end) (fun aux_target =>
    let t_star := match build_type, target_type with
                  | GZZ, GNN => (t_f / 4)%R
                  | GNN, GZZ => (4 * t_f)%R
                  | _, _ => t_f
                  end in
    if check_compatibility g_target g_build zero_tol then
      obind (build_matrix_M n) (fun M =>
      obind (solve (flat_size n) M (map (fun gg => (fst gg / snd gg)%R) (combine g_target g_build))) (fun x =>
      let t_slices := map (fun v => (v * t_star)%R) x in
      obind (slices n gen_build (option_map snd aux_build) t_slices zero_tol (loop_pairs n)) (fun sl =>
      let c0 := BChain sl in
      let c1 := match aux_target with Some (_, h) => BChain [dagger (BEvo h (num t_f)); c0] | None => c0 end in
      Some (if ignore_global_phases then c1
            else
              let c2 := match aux_build with Some (h, _) => BChain [BEvo h (num (lsum t_slices)); c1] | None => c1 end in
              match aux_target with Some (h, _) => BChain [dagger (BEvo h (num t_f)); c2] | None => c2 end))))
    else None))))).
End D.
