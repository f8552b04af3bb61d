(** Two-dimensional NumPy arrays: shape plus entry function.  Entries outside
    the shape are meaningless and never observed ([mat_eq] ignores them). *)

From Coq Require Import Reals.
From Verif Require Import PyBase.
Open Scope Z_scope.

Record mat (A : Type) := mkMat { nrows : Z; ncols : Z; ent : Z -> Z -> A }.
Arguments mkMat {A} nrows ncols ent.
Arguments nrows {A} m.
Arguments ncols {A} m.
Arguments ent {A} m i j.

Definition mat_eq {A} (M N : mat A) : Prop :=
  nrows M = nrows N /\ ncols M = ncols N /\
  forall i j, 0 <= i < nrows M -> 0 <= j < ncols M -> ent M i j = ent N i j.

(** Python slice bound normalisation for an axis of length [n]. *)
Definition slice_bound (n i : Z) : Z :=
  if i <? 0 then Z.max 0 (i + n) else Z.min i n.

(** [M[r0:r1, c0:c1]]. *)
Definition slice {A} (M : mat A) (r0 r1 c0 c1 : Z) : mat A :=
  let a := slice_bound (nrows M) r0 in
  let b := slice_bound (nrows M) r1 in
  let c := slice_bound (ncols M) c0 in
  let d := slice_bound (ncols M) c1 in
  mkMat (Z.max 0 (b - a)) (Z.max 0 (d - c)) (fun i j => ent M (a + i) (c + j)).

(** [M[r0:r1, c0:c1] = N]: the shapes must agree (broadcasting of length-one
    axes is not modelled: the code only assigns products of matching shape). *)
Definition slice_set {A} (M : mat A) (r0 r1 c0 c1 : Z) (N : mat A) : res (mat A) :=
  let a := slice_bound (nrows M) r0 in
  let b := slice_bound (nrows M) r1 in
  let c := slice_bound (ncols M) c0 in
  let d := slice_bound (ncols M) c1 in
  if (Z.max 0 (b - a) =? nrows N) && (Z.max 0 (d - c) =? ncols N) then
    Ok (mkMat (nrows M) (ncols M) (fun i j =>
          if (a <=? i) && (i <? b) && (c <=? j) && (j <? d)
          then ent N (i - a) (j - c) else ent M i j))
  else Raise ValueError.

(** Sum of [f i] for i = 0 .. n-1. *)
Fixpoint rsum (f : Z -> R) (n : nat) : R :=
  match n with
  | O => 0%R
  | S k => (rsum f k + f (Z.of_nat k))%R
  end.

(** [M @ N]; a shape mismatch raises. *)
Definition matmul (M N : mat R) : res (mat R) :=
  if ncols M =? nrows N then
    Ok (mkMat (nrows M) (ncols N)
         (fun i j => rsum (fun k => (ent M i k * ent N k j)%R) (Z.to_nat (ncols M))))
  else Raise ValueError.

(** [np.eye(n)]. *)
Definition eye (n : Z) : mat R := mkMat n n (fun i j => if i =? j then 1%R else 0%R).

(** [M + N], [c * M]. *)
Definition madd (M N : mat R) : mat R :=
  mkMat (nrows M) (ncols M) (fun i j => (ent M i j + ent N i j)%R).
Definition mscale (c : R) (M : mat R) : mat R :=
  mkMat (nrows M) (ncols M) (fun i j => (c * ent M i j)%R).
