(** Independent vocabulary for the spherical-space properties.  Nothing here
    mentions the model. *)

From Coq Require Import ZArith List Bool Sorted.
Import ListNotations.
Open Scope Z_scope.

(** The classical branching rule of the SO(5) irrep of seniority [v] (see e.g.
    the references in the ACM manual): for every [tau = v, v-3, v-6, ... >= 0]
    the angular momenta [tau, tau+1, ..., 2 tau - 2, 2 tau] occur once. *)
Definition tau_contains (tau L : Z) : bool :=
  (tau <=? L) && (L <=? 2 * tau) && negb (L =? 2 * tau - 1).

(** [v, v-3, v-6, ...] down to the last non-negative value (empty if v < 0). *)
Definition taus (v : Z) : list Z :=
  map (fun p => v - 3 * Z.of_nat p) (seq 0 (Z.to_nat (v / 3 + 1))).

(** Multiplicity of [L] in the irrep of seniority [v]. *)
Definition mult (v L : Z) : Z :=
  Z.of_nat (length (filter (fun tau => tau_contains tau L) (taus v))).

(** Sum of [f i] for [i = lo, lo+1, ..., hi] (0 if hi < lo). *)
Definition sum_upto (f : Z -> Z) (lo hi : Z) : Z :=
  fold_right Z.add 0
    (map (fun k => f (lo + Z.of_nat k)) (seq 0 (Z.to_nat (hi - lo + 1)))).

(** A label (v, alpha, L) denotes a state. *)
Definition is_state (s : Z * Z * Z) : Prop :=
  let '(v, a, L) := s in 1 <= a <= mult v L.

(** Lexicographic order: L slowest, then v, then alpha. *)
Definition label_lt (s t : Z * Z * Z) : Prop :=
  let '(v, a, L) := s in
  let '(v', a', L') := t in
  L < L' \/ (L = L' /\ (v < v' \/ (v = v' /\ a < a'))).

(** [l] enumerates the states of the box v_min..v_max, L_min..L_max: each exactly
    once, in increasing order with L slowest and alpha fastest. *)
Definition enumerates (l : list (Z * Z * Z)) (v_min v_max L_min L_max : Z) : Prop :=
  NoDup l /\ StronglySorted label_lt l /\
  forall v a L, In (v, a, L) l <->
    v_min <= v <= v_max /\ L_min <= L <= L_max /\ is_state (v, a, L).
