(** Specification vocabulary for operator sums: physical degree and angular
    momentum of the symbols, real algebras, and what a sum denotes.
    Independent of the algorithms in Operators.v (only the names of symbols and
    the coefficients are shared). *)

From Coq Require Import Reals.
From Verif Require Import PyBase RadialOps Operators.
Open Scope Z_scope.

(** How the name of each spherical harmonic is to be read: SpHarm_vaL, the last
    digit in hexadecimal. *)
Definition harmonic (h : sharm) : Z * Z :=
  match h with
  | SpHarm_010 => (0, 0)
  | SpHarm_112 => (1, 2)
  | SpHarm_212 => (2, 2) | SpHarm_214 => (2, 4)
  | SpHarm_310 => (3, 0) | SpHarm_313 => (3, 3) | SpHarm_314 => (3, 4) | SpHarm_316 => (3, 6)
  | SpHarm_412 => (4, 2) | SpHarm_414 => (4, 4) | SpHarm_415 => (4, 5) | SpHarm_416 => (4, 6)
  | SpHarm_418 => (4, 8)
  | SpHarm_512 => (5, 2) | SpHarm_514 => (5, 4) | SpHarm_515 => (5, 5) | SpHarm_516 => (5, 6)
  | SpHarm_517 => (5, 7) | SpHarm_518 => (5, 8) | SpHarm_51A => (5, 10)
  | SpHarm_610 => (6, 0) | SpHarm_613 => (6, 3) | SpHarm_614 => (6, 4) | SpHarm_616 => (6, 6)
  | SpHarm_626 => (6, 6) | SpHarm_617 => (6, 7) | SpHarm_618 => (6, 8) | SpHarm_619 => (6, 9)
  | SpHarm_61A => (6, 10) | SpHarm_61C => (6, 12)
  end.

(** Angular momentum carried by a symbol: L of the harmonic; pi has 2,
    [pi x pi]_2 and [pi x pi]_4 have 2 and 4, the others are scalars. *)
Definition sym_AM (s : osym) : Z :=
  match s with
  | OSph h => snd (harmonic h)
  | Xspace_Pi => 2
  | Xspace_PiPi2 => 2
  | Xspace_PiPi4 => 4
  | ORad _ | SpDiag_sqLdim | SpDiag_sqLdiv | Xspace_PiqPi => 0
  end.

(** Degree of a symbol in beta, d/dbeta, q and pi, modulo 2; the harmonics of
    seniority v have degree v.  (SU(1,1) operators are even.) *)
Definition sym_degree (s : osym) : Z :=
  match s with
  | ORad (Radial_b | Radial_bm | Radial_Db) => 1
  | ORad _ => 0
  | OSph h => fst (harmonic h)
  | SpDiag_sqLdim | SpDiag_sqLdiv => 0
  | Xspace_Pi => 1
  | Xspace_PiPi2 | Xspace_PiPi4 => 2
  | Xspace_PiqPi => 3
  end.

Definition word_AM (w : list osym) : Z := zsum (map sym_AM w).
Definition word_degree (w : list osym) : Z := zsum (map sym_degree w).

(** Associative real algebras with unit. *)
Record ralg : Type := mkRalg {
  acar :> Type;
  a0 : acar;
  a1 : acar;
  aadd : acar -> acar -> acar;
  amul : acar -> acar -> acar;
  ascal : R -> acar -> acar;
  aadd_assoc : forall x y z, aadd x (aadd y z) = aadd (aadd x y) z;
  aadd_comm : forall x y, aadd x y = aadd y x;
  aadd_0_l : forall x, aadd a0 x = x;
  aadd_0_r : forall x, aadd x a0 = x;
  amul_assoc : forall x y z, amul x (amul y z) = amul (amul x y) z;
  amul_aadd_l : forall x y z, amul x (aadd y z) = aadd (amul x y) (amul x z);
  amul_aadd_r : forall x y z, amul (aadd x y) z = aadd (amul x z) (amul y z);
  amul_1_l : forall x, amul a1 x = x;
  amul_1_r : forall x, amul x a1 = x;
  ascal_0 : forall x, ascal 0 x = a0;
  ascal_1 : forall x, ascal 1 x = x;
  ascal_mul : forall r s x, ascal r (ascal s x) = ascal (r * s) x;
  ascal_add : forall r s x, ascal (r + s) x = aadd (ascal r x) (ascal s x);
  ascal_aadd : forall r x y, ascal r (aadd x y) = aadd (ascal r x) (ascal r y);
  ascal_amul_l : forall r x y, amul (ascal r x) y = ascal r (amul x y);
  ascal_amul_r : forall r x y, amul x (ascal r y) = ascal r (amul x y)
}.

Section Denote.
  Variable A : ralg.
  Variable I : osym -> A.

  Fixpoint word (w : list osym) : A :=
    match w with [] => a1 A | s :: w' => amul A (I s) (word w') end.

  (** The operator denoted by a sum, acting on a state nu, v, alpha, L: the
      coefficients take the quantum numbers of that state. *)
  Fixpoint denote (WOp : OperatorSum) (nu v a L : Z) : A :=
    match WOp with
    | [] => a0 A
    | (c, w) :: l => aadd A (ascal A (cval c nu v a L) (word w)) (denote l nu v a L)
    end.

  Fixpoint asum (l : list A) : A := match l with [] => a0 A | x :: l' => aadd A x (asum l') end.
  Fixpoint apow (x : A) (n : nat) : A := match n with O => a1 A | S k => amul A x (apow x k) end.
End Denote.

(** The real numbers as an algebra over themselves. *)
Definition Ralg : ralg.
Proof.
  refine (mkRalg R 0%R 1%R Rplus Rmult Rmult _ _ _ _ _ _ _ _ _ _ _ _ _ _ _ _); intros; ring.
Defined.
