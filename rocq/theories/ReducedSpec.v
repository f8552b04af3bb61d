(** Specification for the SO(5) reduced matrix elements: the zonal functions on
    the 4-sphere. *)

From Coq Require Import Reals.
From Verif Require Import PyBase.
Open Scope Z_scope.

(** Gegenbauer polynomials C_n of order 3/2:
    (n+2) C_(n+2) = (2n+5) x C_(n+1) - (n+3) C_n. *)
Fixpoint gegen2 (x : R) (n : nat) : R * R :=
  match n with
  | O => (1, 3 * x)%R
  | S k => let '(p, q) := gegen2 x k in
           (q, ((2 * INR k + 5) * x * q - (INR k + 3) * p) / (INR k + 2))%R
  end.
Definition gegen (x : R) (n : nat) : R := fst (gegen2 x n).
