(** Model of qadence/divergences.py.  A Counter is an association list of outcomes (strings) and values with distinct keys. *)
From Coq Require Import String Reals List Bool.
From Verif Require Import M_PSR.
Import ListNotations.
Open Scope R_scope.

Definition counter := list (string * R).
(** Counter lookup: missing outcomes count zero. *)
Definition cget (c : counter) (k : string) : R :=
  match find (fun e => String.eqb (fst e) k) c with Some e => snd e | None => 0 end.
Definition cmem (c : counter) (k : string) : bool := existsb (fun e => String.eqb (fst e) k) c.
Definition posb (x : R) : bool := if Rlt_dec 0 x then true else false.
(** collections.Counter.__add__: sums, keeping positive results only. *)
Definition cadd (p q : counter) : counter :=
  filter (fun e => posb (snd e)) (map (fun e => (fst e, snd e + cget q (fst e))) p)
  ++ filter (fun e => posb (snd e)) (filter (fun e => negb (cmem p (fst e))) q).

(** divergences.py:8-9.  [None]: nan or a warning from the logarithm of a count that is not positive. *)
Definition shannon_entropy (c : counter) : option R :=
  if forallb (fun e => posb (snd e)) c then Some (- rsum (map (fun e => snd e * ln (snd e)) c)) else None.
Definition normalise (c : counter) : counter := map (fun e => (fst e, snd e / rsum (map snd c))) c.
(** divergences.py:12-38. *)
Definition js_divergence (counter_p counter_q : counter) : option R :=
  let counter_p := normalise counter_p in
  let counter_q := normalise counter_q in
  let average := map (fun e => (fst e, snd e / 2)) (cadd counter_p counter_q) in
  match shannon_entropy average, shannon_entropy counter_p, shannon_entropy counter_q with
  | Some a, Some p, Some q => Some (a - (p + q) / 2)
  | _, _, _ => None
  end.
(** divergences.py:41-50, for counters with the same number of entries ([None]: shapes that do not broadcast; the broadcast of a
    single entry is not modelled). *)
Definition norm_difference (counter_p counter_q : counter) : option R :=
  let p := map snd counter_p in
  let q := map snd counter_q in
  if Nat.eqb (length p) (length q) then
    Some (sqrt (rsum (map (fun ab => (fst ab / rsum p - snd ab / rsum q) ^ 2) (combine p q))))
  else None.
