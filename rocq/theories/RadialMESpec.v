(** Specification vocabulary for matrix elements over the infinite radial basis
    mu = 0, 1, 2, ... *)

From Coq Require Import Reals.
From Verif Require Import PyBase Matrix.
Open Scope Z_scope.

(** What is used of the Gamma function. *)
Definition gamma_like (Gam : R -> R) : Prop :=
  forall x, (0 < x)%R -> (0 < Gam x)%R /\ Gam (x + 1)%R = (x * Gam x)%R.

(** A matrix over the radial basis. *)
Definition rmat : Type := Z -> Z -> R.

(** The function returns these matrix elements and never raises. *)
Definition represents (ME : Z -> Z -> res R) (M : rmat) : Prop :=
  forall f i, 0 <= f -> 0 <= i -> ME f i = Ok (M f i).

Definition req (A B : rmat) : Prop := forall f i, 0 <= f -> 0 <= i -> A f i = B f i.

(** [A . B = C] where row f of A ends at column f+1 at the latest: already the
    sum over mu = 0 .. N-1 is exact as soon as N >= f+2. *)
Definition prod_is (A B C : rmat) : Prop :=
  forall f i (N : nat), 0 <= f -> 0 <= i -> f + 2 <= Z.of_nat N ->
    rsum (fun k => (A f k * B k i)%R) N = C f i.

Definition rid : rmat := fun f i => if f =? i then 1%R else 0%R.
Definition rtr (A : rmat) : rmat := fun f i => A i f.
Definition radd (A B : rmat) : rmat := fun f i => (A f i + B f i)%R.
Definition rsub (A B : rmat) : rmat := fun f i => (A f i - B f i)%R.
Definition rscale (c : R) (A : rmat) : rmat := fun f i => (c * A f i)%R.
