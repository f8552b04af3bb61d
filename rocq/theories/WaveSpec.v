(** Specification vocabulary for C76 and C77: the radial wave functions of the
    paper behind the code (Welsh and Rowe, Computer Physics Communications 200
    (2016) 220), to which radial_space.py:103-116 and radial_bases.py:9-12
    refer, and the operators acting on them.

    [Gamma] (Improper.v) is Euler's integral of t^(s-1) exp(-t) over (0, oo);
    [laguerre a x n] (Laguerre.v) is the Laguerre polynomial L_n^a(x);
    [integral f v] (Improper.v) says that the integral of f over (0, oo) exists
    as an improper Riemann integral and has the value v. *)

From Coq Require Import Reals ZArith List.
From Coquelicot Require Import Coquelicot.
From Verif Require Import RadialOps RadialMESpec Improper Laguerre.
Open Scope Z_scope.

(** The basis function number nu for width a and parameter lambda:
    (-1)^nu sqrt(2 nu! / Gamma(lambda + nu)) sqrt(a) (a b)^(lambda - 1/2)
    exp(-(a b)^2 / 2) L_nu^(lambda - 1)((a b)^2). *)
Definition wave (a lam : R) (nu : Z) (b : R) : R :=
  let n := Z.to_nat nu in
  ((-1) ^ n * sqrt (2 * INR (fact n) / Gamma (lam + INR n)) * sqrt a
   * Rpower (a * b) (lam - 1 / 2) * exp (- (a * b * (a * b)) / 2) * laguerre (lam - 1) (a * b * (a * b)) n)%R.

(** Operators on functions of beta. *)
Definition fop : Type := (R -> R) -> R -> R.
Definition op_one : fop := fun g b => g b.
Definition op_beta : fop := fun g b => (b * g b)%R.
Definition op_inv : fop := fun g b => (g b / b)%R.
Definition op_diff : fop := fun g b => Derive g b.

(** The matrix of T between the functions for lambda (initial states) and those
    for lambda' (final states) is M: every one of the integrals exists and is
    the corresponding entry of M. *)
Definition elements (a lam' lam : R) (T : fop) (M : rmat) : Prop :=
  forall f i, 0 <= f -> 0 <= i -> integral (fun b => (wave a lam' f b * T (wave a lam i) b)%R) (M f i).

(** The SU(1,1) operators of width a: with x = a b and
    D = d2/dx2 - (lambda - 3/2)(lambda - 1/2)/x^2,
    S0 = (x^2 - D)/4 and S+- = (x^2 + D -+ (2 x d/dx + 1))/4. *)
Definition op_D (a lam : R) : fop := fun g b =>
  (Derive (Derive g) b / (a * a) - (lam - 3 / 2) * (lam - 1 / 2) * (g b / (a * b * (a * b))))%R.
Definition op_S0 (a lam : R) : fop := fun g b => ((a * b * (a * b) * g b - op_D a lam g b) / 4)%R.
Definition op_Sp (a lam : R) : fop := fun g b =>
  ((a * b * (a * b) * g b + op_D a lam g b - (2 * (b * Derive g b) + g b)) / 4)%R.
Definition op_Sm (a lam : R) : fop := fun g b =>
  ((a * b * (a * b) * g b + op_D a lam g b + (2 * (b * Derive g b) + g b)) / 4)%R.

(** What a symbol of the radial algebra does, and a product of symbols; the
    SU(1,1) operators are those of the given width and lambda.  A symbol that
    names no radial operator does nothing (no theorem uses this). *)
Definition sym_fop (a lam : R) (s : rsym) : fop :=
  match s with
  | Radial_Sm => op_Sm a lam
  | Radial_S0 => op_S0 a lam
  | Radial_Sp => op_Sp a lam
  | Radial_b2 => fun g => op_beta (op_beta g)
  | Radial_bm2 => fun g => op_inv (op_inv g)
  | Radial_D2b => fun g => op_diff (op_diff g)
  | Radial_bDb => fun g => op_beta (op_diff g)
  | Radial_b => op_beta
  | Radial_bm => op_inv
  | Radial_Db => op_diff
  | Radial_other _ => op_one
  end.
(** The first symbol acts last. *)
Definition word_fop (a lam : R) (w : list rsym) : fop :=
  fold_right (fun s T g => sym_fop a lam s (T g)) (fun g => g) w.
