(** C84: what the transpose of a matrix is, and which operators are meant. *)

From Coq Require Import Reals.
From Verif Require Import PyBase Matrix FullLabels RadialOps Operators.
Open Scope Z_scope.

(** [B] is the transpose of [A]. *)
Definition transposed (A B : mat R) : Prop :=
  nrows B = ncols A /\ ncols B = nrows A /\
  forall x y, 0 <= x < nrows A -> 0 <= y < ncols A -> ent B y x = ent A x y.

Definition symmetric (A : mat R) : Prop := transposed A A.

(** A matrix function which takes symmetric matrices to symmetric ones of the
    same size (as the square root computed from an eigendecomposition). *)
Definition keeps_symmetric (f : mat R -> res (mat R)) : Prop :=
  forall A B, symmetric A -> f A = Ok B -> symmetric B /\ nrows B = nrows A.

(** Words in beta, beta^2, 1/beta and 1/beta^2, and their exponent. *)
Definition power (s : rsym) : option Z :=
  match s with
  | Radial_b => Some 1
  | Radial_b2 => Some 2
  | Radial_bm => Some (-1)
  | Radial_bm2 => Some (-2)
  | _ => None
  end.
Definition power_word (w : list rsym) : Prop := Forall (fun s => power s <> None) w.
Definition exponent (w : list rsym) : Z :=
  zsum (map (fun s => match power s with Some k => k | None => 0 end) w).

(** The powers of beta for which the library uses mirror images of the same
    matrices in both directions, when lambda changes by [shift]. *)
Definition mirrored (K shift : Z) : Prop :=
  (K = 0 \/ (shift - K) mod 2 = 0) /\ (shift = 0 \/ Z.abs K <= Z.abs shift).
