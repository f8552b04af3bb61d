(** Model of the SO(3) Clebsch-Gordan coefficients,
    src/acmpy/so5_so3_cg.py:397-455. *)

From Coq Require Import Reals QArith.
From Verif Require Import PyBase.
Open Scope Z_scope.

(** Twice a sympy rational, when that is an integer. *)
Definition half (q : Q) : option Z :=
  if (2 * Qnum q) mod Zpos (Qden q) =? 0 then Some (2 * Qnum q / Zpos (Qden q)) else None.

(** Below, half-integers are given by their doubles.  [None] as a number stands
    for everything that is not a finite real number (complex infinity, nan, a
    complex power, a gamma function value). *)
Definition obind {A B} (m : option A) (f : A -> option B) : option B :=
  match m with Some a => f a | None => None end.
Notation "'do' x ':=' m 'in' k" := (obind m (fun x => k))
  (at level 200, x pattern, m at level 100, k at level 200, right associativity).

(** [factorial(t/2)] is a number for a non-negative integer only. *)
Definition sfact (t : Z) : option R :=
  if (t mod 2 =? 0) && (0 <=? t) then Some (INR (fact (Z.to_nat (t / 2)))) else None.

(** [S.NegativeOne ** (t/2)]. *)
Definition spow (t : Z) : option R :=
  if t mod 2 =? 0 then Some (powerRZ (-1) (t / 2)) else None.

Definition sdiv (a b : R) : option R := if Req_EM_T b 0 then None else Some (a / b)%R.
Definition ssqrt (a : R) : option R := if Rle_dec 0 a then Some (sqrt a) else None.

(** [sum] of a generator. *)
Fixpoint osum (l : list (option R)) : option R :=
  match l with
  | [] => Some 0%R
  | x :: l' => do a := x in do b := osum l' in Some (a + b)%R
  end.

(** The term of the sum at [s] (an integer, so its double is [2 * s]);
    so5_so3_cg.py:448-454. *)
Definition wterm (j1 j2 j3 m1 m2 m3 s : Z) : option R :=
  do p := spow (2 * s) in
  do f1 := sfact (j1 + m1 + 2 * s) in
  do f2 := sfact (j2 + j3 - m1 - 2 * s) in
  do g1 := sfact (2 * s) in
  do g2 := sfact (j1 - m1 - 2 * s) in
  do g3 := sfact (j2 - j3 + m1 + 2 * s) in
  do g4 := sfact (j3 + m3 - 2 * s) in
  sdiv (p * f1 * f2)%R (g1 * g2 * g3 * g4)%R.

(** so5_so3_cg.py:433-455 [Wigner_3j] on half-integers.  [range] raises
    [TypeError] on a bound that is not an integer. *)
Definition Wigner_3j (j1 j2 j3 m1 m2 m3 : Z) : res (option R) :=
  let lo := Z.max 0 (j3 - j2 - m1) in
  let hi := Z.min (j3 + m3) (j1 - m1) in
  check raise_if (negb (lo mod 2 =? 0) || negb (hi mod 2 =? 0)) TypeError ;;
  Ok (do p := spow (2 * j1 - j2 + m2) in
      do n1 := sfact (j1 + j2 - j3) in
      do n2 := sfact (j1 - m1) in
      do n3 := sfact (j2 - m2) in
      do n4 := sfact (j3 - m3) in
      do n5 := sfact (j3 + m3) in
      do d1 := sfact (j1 + j2 + j3 + 2) in
      do d2 := sfact (j1 - j2 + j3) in
      do d3 := sfact (- j1 + j2 + j3) in
      do d4 := sfact (j1 + m1) in
      do d5 := sfact (j2 + m2) in
      do q := sdiv (n1 * n2 * n3 * n4 * n5)%R (d1 * d2 * d3 * d4 * d5)%R in
      do r := ssqrt q in
      do t := osum (map (wterm j1 j2 j3 m1 m2 m3) (py_range (lo / 2) (hi / 2 + 1))) in
      Some (p * r * t)%R).

(** so5_so3_cg.py:397-422 [CG_SO3]. *)
Definition CG_SO3 (qj1 qm1 qj2 qm2 qj3 qm3 : Q) : res (option R) :=
  match half qj1, half qm1, half qj2, half qm2, half qj3, half qm3 with
  | Some j1, Some m1, Some j2, Some m2, Some j3, Some m3 =>
      if (j1 <? Z.abs m1) || (j2 <? Z.abs m2) || (j3 <? Z.abs m3) then Ok (Some 0%R)
      else if negb (((j1 + m1) mod 2 =? 0) && ((j2 + m2) mod 2 =? 0) && ((j3 + m3) mod 2 =? 0))
      then Ok (Some 0%R)
      else if negb (m1 + m2 =? m3) then Ok (Some 0%R)
      else if (j3 <? Z.abs (j1 - j2)) || (j1 + j2 <? j3) then Ok (Some 0%R)
      else
        let* w := Wigner_3j j1 j2 j3 m1 m2 (- m3) in
        Ok (do p := spow (j1 - j2 + m3) in
            do x := w in
            do r := ssqrt (IZR (j3 + 1)) in
            Some (p * (x * r))%R)
  | _, _, _, _, _, _ => Raise ValueError
  end.
