(** Vocabulary for the SO(5) Clebsch-Gordan properties.  [mult v L] is the
    multiplicity of angular momentum L in the irrep of seniority v. *)

From Coq Require Import ZArith List Bool Reals.
From Verif Require Import PyBase Text SphericalSpec.
Open Scope Z_scope.

(** Three non-negative numbers that can couple. *)
Definition triangle (x y z : Z) : Prop := x <= y + z /\ y <= x + z /\ z <= x + y.

(** Order of the quadruples (a1, L1, a3, L3): L1, a1, L3, a3 from slowest to
    fastest. *)
Definition quartet_lt (x y : Z * Z * Z * Z) : Prop :=
  let '(a1, L1, a3, L3) := x in
  let '(b1, M1, b3, M3) := y in
  L1 < M1 \/ (L1 = M1 /\ (a1 < b1 \/ (a1 = b1 /\ (L3 < M3 \/ (L3 = M3 /\ a3 < b3))))).

(** A coefficient (v1 a1 L1; v2 a2 L2 || v3 a3 L3) with non-negative v, L and
    positive a. *)
Record nonet : Type := { n_v1 : Z; n_a1 : Z; n_L1 : Z; n_v2 : Z; n_a2 : Z; n_L2 : Z;
                         n_v3 : Z; n_a3 : Z; n_L3 : Z }.

Definition legal_nonet (n : nonet) : Prop :=
  (0 <= n_v1 n /\ 1 <= n_a1 n /\ 0 <= n_L1 n) /\
  (0 <= n_v2 n /\ 1 <= n_a2 n /\ 0 <= n_L2 n) /\
  (0 <= n_v3 n /\ 1 <= n_a3 n /\ 0 <= n_L3 n).

(** The selection rules. *)
Definition admissible (n : nonet) : Prop :=
  triangle (n_v1 n) (n_v2 n) (n_v3 n) /\ Z.Even (n_v1 n + n_v2 n + n_v3 n) /\
  triangle (n_L1 n) (n_L2 n) (n_L3 n) /\
  n_a1 n <= mult (n_v1 n) (n_L1 n) /\ n_a2 n <= mult (n_v2 n) (n_L2 n) /\
  n_a3 n <= mult (n_v3 n) (n_L3 n).

(** The states 1 and 3 exchanged. *)
Definition exchange (n : nonet) : nonet :=
  {| n_v1 := n_v3 n; n_a1 := n_a3 n; n_L1 := n_L3 n; n_v2 := n_v2 n; n_a2 := n_a2 n;
     n_L2 := n_L2 n; n_v3 := n_v1 n; n_a3 := n_a1 n; n_L3 := n_L1 n |}.

(** Dimension of the SO(5) irrep of seniority v. *)
Definition dim5 (v : Z) : R := (IZR (v + 1) * IZR (v + 2) * IZR (2 * v + 3) / 6)%R.
