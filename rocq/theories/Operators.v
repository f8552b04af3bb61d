(** Model of src/acmpy/internal_operators.py and of the operator tables of
    src/acmpy/spherical_space.py. *)

From Coq Require Import Reals.
From Verif Require Import PyBase Compat Matrix Spherical RadialOps RadialME CGSO3.
Open Scope Z_scope.

(** spherical_space.py:42-71: the symbols of the spherical harmonics. *)
Inductive sharm : Set :=
| SpHarm_010
| SpHarm_112
| SpHarm_212 | SpHarm_214
| SpHarm_310 | SpHarm_313 | SpHarm_314 | SpHarm_316
| SpHarm_412 | SpHarm_414 | SpHarm_415 | SpHarm_416 | SpHarm_418
| SpHarm_512 | SpHarm_514 | SpHarm_515 | SpHarm_516 | SpHarm_517 | SpHarm_518 | SpHarm_51A
| SpHarm_610 | SpHarm_613 | SpHarm_614 | SpHarm_616 | SpHarm_626 | SpHarm_617 | SpHarm_618
| SpHarm_619 | SpHarm_61A | SpHarm_61C.

(** spherical_space.py:73-104 [SpHarm_Table]. *)
Definition SpHarm_Table (h : sharm) : label :=
  match h with
  | SpHarm_010 => (0, 1, 0)
  | SpHarm_112 => (1, 1, 2)
  | SpHarm_212 => (2, 1, 2)
  | SpHarm_214 => (2, 1, 4)
  | SpHarm_310 => (3, 1, 0)
  | SpHarm_313 => (3, 1, 3)
  | SpHarm_314 => (3, 1, 4)
  | SpHarm_316 => (3, 1, 6)
  | SpHarm_412 => (4, 1, 2)
  | SpHarm_414 => (4, 1, 4)
  | SpHarm_415 => (4, 1, 5)
  | SpHarm_416 => (4, 1, 6)
  | SpHarm_418 => (4, 1, 8)
  | SpHarm_512 => (5, 1, 2)
  | SpHarm_514 => (5, 1, 4)
  | SpHarm_515 => (5, 1, 5)
  | SpHarm_516 => (5, 1, 6)
  | SpHarm_517 => (5, 1, 7)
  | SpHarm_518 => (5, 1, 8)
  | SpHarm_51A => (5, 1, 10)
  | SpHarm_610 => (6, 1, 0)
  | SpHarm_613 => (6, 1, 3)
  | SpHarm_614 => (6, 1, 4)
  | SpHarm_616 => (6, 1, 6)
  | SpHarm_626 => (6, 2, 6)
  | SpHarm_617 => (6, 1, 7)
  | SpHarm_618 => (6, 1, 8)
  | SpHarm_619 => (6, 1, 9)
  | SpHarm_61A => (6, 1, 10)
  | SpHarm_61C => (6, 1, 12)
  end.

(** The symbols that may occur in an operator product: radial_space.py:32-41
    (and unknown symbols), spherical_space.py:42-71 and 123-124,
    internal_operators.py:35-38. *)
Inductive osym : Set :=
| ORad (r : rsym)
| OSph (h : sharm)
| SpDiag_sqLdim
| SpDiag_sqLdiv
| Xspace_Pi
| Xspace_PiPi2
| Xspace_PiPi4
| Xspace_PiqPi.

(** ** Coefficients *)

(** A SymPy coefficient: a number, or an expression in NUMBER, SENIORITY,
    ALFA, ANGMOM, given by its value at nu, v, alpha, L.  Simplification: an
    expression that SymPy would reduce to a number by cancellation of symbols
    ([SENIORITY - SENIORITY]) stays an expression here. *)
Inductive coef : Type :=
| CNum (r : R)
| CSym (f : Z -> Z -> Z -> Z -> R).

Definition cval (c : coef) (nu v a L : Z) : R :=
  match c with CNum r => r | CSym f => f nu v a L end.

(** [c == 0]. *)
Definition is0 (c : coef) : bool :=
  match c with CNum r => if Req_EM_T r 0 then true else false | CSym _ => false end.

(** [c + d], [c * d]. *)
Definition cadd (c d : coef) : coef :=
  match c, d with
  | CNum a, CNum b => CNum (a + b)
  | _, _ => if is0 c then d else if is0 d then c
            else CSym (fun nu v a L => (cval c nu v a L + cval d nu v a L)%R)
  end.
Definition cmul (c d : coef) : coef :=
  match c, d with
  | CNum a, CNum b => CNum (a * b)
  | _, _ => if is0 c || is0 d then CNum 0
            else CSym (fun nu v a L => (cval c nu v a L * cval d nu v a L)%R)
  end.
(** [r * c] for a number [r]. *)
Definition cscale (r : R) (c : coef) : coef := cmul (CNum r) c.

Definition OperatorProduct : Type := list osym.
Definition OperatorTerm : Type := (coef * OperatorProduct)%type.
Definition OperatorSum : Type := list OperatorTerm.

(** internal_operators.py:51-68 (used ones). *)
Definition FourPi : R := (4 * PI)%R.
Definition Convert_112 : R := (FourPi / sqrt 15)%R.
Definition Convert_310 : R := (FourPi / 3)%R.
Definition Convert_610 : R := (2 * FourPi / sqrt 15)%R.
Definition Convert_red : R := (1 / FourPi)%R.

(** internal_operators.py:76-77. *)
Definition quad_op : OperatorSum := [(CNum Convert_112, [ORad Radial_b; OSph SpHarm_112])].
Definition quadRigid_op : OperatorSum := [(CNum Convert_112, [OSph SpHarm_112])].

(** internal_operators.py:646-704 [ACM_Hamiltonian]. *)
Definition opt_term (c : coef) (t : OperatorTerm) : OperatorSum := if is0 c then [] else [t].

Definition SEN (f : Z -> R) : coef := CSym (fun _ v _ _ => f v).

Definition ACM_Hamiltonian (c11 c20 c21 c22 c23 c30 c31 c32 c33 c40 c41 c42 c43 c50 : coef)
  : OperatorSum :=
  let b := ORad Radial_b in
  let b2 := ORad Radial_b2 in
  let bm := ORad Radial_bm in
  let bm2 := ORad Radial_bm2 in
  let Y := OSph SpHarm_310 in
  (if is0 c11 then []
   else [(c11, [ORad Radial_D2b]);
         (cmul (cscale (-1) c11) (SEN (fun v => 2 + IZR v * (IZR v + 3))%R), [bm2])])
  ++ opt_term c20 (c20, [])
  ++ opt_term c21 (c21, [b2])
  ++ opt_term c22 (c22, [b2; b2])
  ++ opt_term c23 (c23, [bm2])
  ++ opt_term c30 (cscale Convert_310 c30, [b; Y])
  ++ opt_term c31 (cscale Convert_310 c31, [b2; b; Y])
  ++ opt_term c32 (cscale Convert_310 c32, [b2; b2; b; Y])
  ++ opt_term c33 (cscale Convert_310 c33, [bm; Y])
  ++ opt_term c40 (cscale (Convert_310 ^ 2) c40, [Y; Y])
  ++ opt_term c41 (cscale (Convert_310 ^ 2) c41, [b2; Y; Y])
  ++ opt_term c42 (cscale (Convert_310 ^ 2) c42, [b2; b2; Y; Y])
  ++ opt_term c43 (cscale (Convert_310 ^ 2) c43, [bm2; Y; Y])
  ++ opt_term c50 (c50, [Xspace_PiqPi]).

(** internal_operators.py:809-824 [ACM_HamSH3]; [zip(range(1, 9), ...)]. *)
Definition ACM_HamSH3 (c0 c1 c2 c3 c4 c5 c6 c7 c8 : coef) : OperatorSum :=
  opt_term c0 (c0, [])
  ++ flat_map (fun nc : nat * coef =>
       let '(n, c) := nc in
       opt_term c (cscale (Convert_310 ^ n) c, repeat (OSph SpHarm_310) n))
     (combine (seq 1 8) [c1; c2; c3; c4; c5; c6; c7; c8]).

(** internal_operators.py:882-922 [ACM_HamSH6]. *)
Definition ACM_HamSH6 (c0 c1 c2 c3 c4 c5 c6 c7 c8 : coef) : OperatorSum :=
  let f (r : R) (c : coef) := cscale r c in
  let d0 := cadd (cadd (cadd (cadd c0 (f (1 / 3)%R c2)) (f (1 / 9)%R c4)) (f (1 / 27)%R c6)) (f (1 / 81)%R c8) in
  let d1 := cadd (cadd (cadd c1 (f (1 / 3)%R c3)) (f (1 / 9)%R c5)) (f (1 / 27)%R c7) in
  let d2 := cadd (cadd (cadd (f (1 / 3)%R c2) (f (2 / 9)%R c4)) (f (1 / 9)%R c6)) (f (4 / 81)%R c8) in
  let d3 := cadd (cadd (f (1 / 3)%R c3) (f (2 / 9)%R c5)) (f (1 / 9)%R c7) in
  let d4 := cadd (cadd (f (1 / 9)%R c4) (f (1 / 9)%R c6)) (f (2 / 27)%R c8) in
  let d5 := cadd (f (1 / 9)%R c5) (f (1 / 9)%R c7) in
  let d6 := cadd (f (1 / 27)%R c6) (f (4 / 81)%R c8) in
  let d7 := f (1 / 27)%R c7 in
  let d8 := f (1 / 81)%R c8 in
  let X := OSph SpHarm_610 in
  let Y := OSph SpHarm_310 in
  opt_term d0 (d0, [])
  ++ opt_term d1 (cscale Convert_310 d1, [Y])
  ++ opt_term d2 (cscale Convert_610 d2, [X])
  ++ opt_term d3 (cscale (Convert_610 * Convert_310) d3, [X; Y])
  ++ opt_term d4 (cscale (Convert_610 ^ 2) d4, [X; X])
  ++ opt_term d5 (cscale (Convert_610 ^ 2 * Convert_310) d5, [X; X; Y])
  ++ opt_term d6 (cscale (Convert_610 ^ 3) d6, [X; X; X])
  ++ opt_term d7 (cscale (Convert_610 ^ 3 * Convert_310) d7, [X; X; X; Y])
  ++ opt_term d8 (cscale (Convert_610 ^ 4) d8, [X; X; X; X]).

(** internal_operators.py:740-763 [ACM_HamRigidBeta]. *)
Definition ACM_HamRigidBeta (cas con c1 c2 c3 c4 c5 c6 : coef) (flag : Z) : res OperatorSum :=
  check raise_if (negb ((flag =? 0) || (flag =? 1))) ValueError ;;
  let z := CNum 0 in
  let our_op := if flag =? 0 then ACM_HamSH3 con c1 c2 c3 c4 c5 c6 z z
                else ACM_HamSH6 con c1 c2 c3 c4 c5 c6 z z in
  if is0 cas then Ok our_op
  else Ok ((cmul cas (SEN (fun v => IZR v * (IZR v + 3))%R), []) :: our_op).

(** hamiltonian_data.py:27-35 [RWC_Ham] for numbers and B <> 0. *)
Definition RWC_Ham (B c1 c2 chi kappa : R) : OperatorSum :=
  let z := CNum 0 in
  ACM_Hamiltonian (CNum (-1 / (2 * B))) z (CNum (B * c1 / 2)) (CNum (B * c2 / 2)) z
    (CNum (- chi)) z z z (CNum kappa) z z z z.

(** internal_operators.py:1095-1109. *)
Definition laplacian_op : OperatorSum :=
  [(CNum 1, [ORad Radial_D2b]);
   (SEN (fun v => - (2 + IZR v * (IZR v + 3)))%R, [ORad Radial_bm2])].
Definition comm_su11_op : OperatorSum :=
  [(CNum 1, [ORad Radial_Sm; ORad Radial_Sp]);
   (CNum (-1), [ORad Radial_Sp; ORad Radial_Sm]);
   (CNum (-2), [ORad Radial_S0])].
Definition comm_bdb_op : OperatorSum :=
  [(CNum (-1), [ORad Radial_b; ORad Radial_Db]);
   (CNum 1, [ORad Radial_Db; ORad Radial_b]);
   (CNum (-1), [])].

(** ** Classification *)

(** internal_operators.py:969-976: the loop over a term in [Op_AM]. *)
Definition am_of (t : osym) : Z :=
  match t with
  | OSph h => let '(_, _, L) := SpHarm_Table h in L
  | Xspace_Pi | Xspace_PiPi2 => 2
  | Xspace_PiPi4 => 4
  | _ => 0
  end.
Definition term_am (w : OperatorProduct) : Z := fold_left (fun am t => am + am_of t) w 0.

(** internal_operators.py:961-985 [Op_AM]. *)
Definition Op_AM (WOp : OperatorSum) : Z :=
  match WOp with
  | [] => 0
  | t :: l =>
      fold_left (fun first (t : OperatorTerm) =>
        let am := term_am (snd t) in
        if (0 <=? first) && negb (first =? am) then - Z.max first am
        else if (first <? 0) && (- first <? am) then - am
        else first) l (term_am (snd t))
  end.

(** internal_operators.py:1029-1032: the set in [Op_Parity]. *)
Definition in_parity_set (t : osym) : bool :=
  match t with
  | ORad Radial_b | ORad Radial_bm | ORad Radial_Db | Xspace_Pi
  | OSph SpHarm_112 | OSph SpHarm_310 | OSph SpHarm_313 | OSph SpHarm_314 | OSph SpHarm_316
  | OSph SpHarm_512 | OSph SpHarm_514 | OSph SpHarm_515 | OSph SpHarm_516 | OSph SpHarm_517
  | OSph SpHarm_518 | OSph SpHarm_51A => true
  | _ => false
  end.
Definition term_parity (w : OperatorProduct) : Z :=
  fold_left (fun p t => if in_parity_set t then p + 1 else p) w 0.

(** internal_operators.py:1020-1041 [Op_Parity]. *)
Fixpoint parity_loop (first : Z) (l : OperatorSum) : Z :=
  match l with
  | [] => first
  | t :: l' => if (term_parity (snd t) - first) mod 2 =? 1 then -1 else parity_loop first l'
  end.
Definition Op_Parity (WOp : OperatorSum) : Z :=
  match WOp with
  | [] => 0
  | t :: l => parity_loop (term_parity (snd t) mod 2) l
  end.

(** internal_operators.py:1069-1079 [Op_Tame]. *)
Definition untame (t : osym) : bool :=
  match t with Xspace_Pi | Xspace_PiPi2 | Xspace_PiPi4 => true | _ => false end.
Definition Op_Tame (WOp : OperatorSum) : bool :=
  forallb (fun t : OperatorTerm => forallb (fun s => negb (untame s)) (snd t)) WOp.

(** ** SO(5) reduced matrix elements *)

(** internal_operators.py:95-110 [ME_SO5red].  Factorials take doubles (see
    CGSO3.v), [sigma/2] being half an integer. *)
Definition ME_SO5red (u w v : Z) : res (option R) :=
  check require_nonnegint u ;;
  check require_nonnegint w ;;
  check require_nonnegint v ;;
  if (u + v <? w) || (u + w <? v) || (v + w <? u) || is_odd (u + v + w) then Ok (Some 0%R)
  else
    let sigma := v + w + u in
    Ok (do n := sfact (sigma + 2) in
        do d1 := sfact (sigma - 2 * u) in
        do d2 := sfact (sigma - 2 * v) in
        do d3 := sfact (sigma - 2 * w) in
        do q := sdiv n (d1 * d2 * d3)%R in
        do f1 := sfact (2 * (sigma - 2 * u + 1)) in
        do f2 := sfact (2 * (sigma - 2 * w + 1)) in
        do f3 := sfact (2 * (sigma - 2 * v + 1)) in
        do g := sfact (2 * (sigma + 3)) in
        do a := sdiv (IZR ((2 * v + 3) * (2 * w + 3) * (sigma + 4))) (IZR (u + 2)) in
        do a' := sdiv a (IZR (u + 1)) in
        do x := sdiv (a' * f1 * f2 * f3)%R g in
        do s := ssqrt x in
        Some (q * s)%R).

(** [sqrt(Rational(p, q))]; the denominators below are odd, hence not 0.
    [None]: not a real number. *)
Definition sqrt_rational (p q : Z) : option R := do x := sdiv (IZR p) (IZR q) in ssqrt x.

(** internal_operators.py:127-132 [Qred_p1]. *)
Definition Qred_p1 (v : Z) : res (option R) :=
  check require_nonnegint v ;;
  let p := v + 1 in
  let q := 2 * v + 5 in
  Ok (sqrt_rational p q).
(** internal_operators.py:136-141 [Qred_m1]. *)
Definition Qred_m1 (v : Z) : res (option R) :=
  check require_nonnegint v ;;
  let p := v + 2 in
  let q := 2 * v + 1 in
  Ok (sqrt_rational p q).
(** internal_operators.py:147-152 [QxQred_p2]. *)
Definition QxQred_p2 (v : Z) : res (option R) :=
  check require_nonnegint v ;;
  let p := (v + 1) * (v + 2) in
  let q := (2 * v + 5) * (2 * v + 7) in
  Ok (sqrt_rational p q).
(** internal_operators.py:156-161 [QxQred_0]. *)
Definition QxQred_0 (v : Z) : res (option R) :=
  check require_nonnegint v ;;
  let p := 6 * v * (v + 3) in
  let q := 5 * (2 * v + 1) * (2 * v + 5) in
  Ok (sqrt_rational p q).
(** internal_operators.py:165-170 [QxQred_m2]. *)
Definition QxQred_m2 (v : Z) : res (option R) :=
  check require_nonnegint v ;;
  let p := (v + 1) * (v + 2) in
  let q := (2 * v + 1) * (2 * v - 1) in
  Ok (sqrt_rational p q).
(** internal_operators.py:177-182 [QxQxQred_p3]. *)
Definition QxQxQred_p3 (v : Z) : res (option R) :=
  check require_nonnegint v ;;
  let p := (v + 1) * (v + 2) * (v + 3) in
  let q := (2 * v + 5) * (2 * v + 7) * (2 * v + 9) in
  Ok (sqrt_rational p q).
(** internal_operators.py:186-191 [QxQxQred_p1]. *)
Definition QxQxQred_p1 (v : Z) : res (option R) :=
  check require_nonnegint v ;;
  let p := v * (v + 1) * (v + 4) in
  let q := 7 * (2 * v + 1) * (2 * v + 5) * (2 * v + 7) in
  Ok (do s := sqrt_rational p q in Some (3 * s)%R).
(** internal_operators.py:195-200 [QxQxQred_m1]. *)
Definition QxQxQred_m1 (v : Z) : res (option R) :=
  check require_nonnegint v ;;
  let p := (v - 1) * (v + 2) * (v + 3) in
  let q := 7 * (2 * v - 1) * (2 * v + 1) * (2 * v + 5) in
  Ok (do s := sqrt_rational p q in Some (3 * s)%R).
(** internal_operators.py:204-209 [QxQxQred_m3]. *)
Definition QxQxQred_m3 (v : Z) : res (option R) :=
  check require_nonnegint v ;;
  let p := v * (v + 1) * (v * 2) in
  let q := (2 * v - 3) * (2 * v - 1) * (2 * v + 1) in
  Ok (sqrt_rational p q).

(** [float(x)]: a SymPy expression that is not real raises. *)
Definition to_float (x : option R) : res R :=
  match x with Some r => Ok r | None => Raise TypeError end.

(** A matrix given by its rows: [np.array([[...] ...])].  Simplification: for
    no rows NumPy returns an array of shape (0,), here it is 0 x 0. *)
Definition mat_of_rows (n : Z) (rows : list (list R)) : mat R :=
  mkMat (zlen rows) n (fun i j => nth (Z.to_nat j) (nth (Z.to_nat i) rows []) 0%R).

(** [np.diag(l)]. *)
Definition mat_diag (l : list R) : mat R :=
  mkMat (zlen l) (zlen l) (fun i j => if i =? j then nth (Z.to_nat i) l 0%R else 0%R).

Section Harmonics.
  (** [CG_SO5r3] (CG.v); that its values do not depend on the state of its
      cache is C13. *)
  Variable CG : Z -> Z -> Z -> Z -> Z -> Z -> Z -> Z -> Z -> res R.

  (** internal_operators.py:233-236 [ME_SO5r3]. *)
  Definition ME_SO5r3 (v_f al_f L_f v al L v_i al_i L_i : Z) : res (option R) :=
    let* c := CG v_i al_i L_i v al L v_f al_f L_f in
    let* m := ME_SO5red v_f v v_i in
    Ok (do x := m in Some (c * x)%R).

  (** internal_operators.py:275-281 [RepSO5_Y_rem], without its memo table. *)
  Definition RepSO5_Y (v al L v_min v_max L_min L_max : Z) : res (mat R) :=
    let* states := lbsSO5r3_rngVvarL v_min v_max L_min (Some L_max) in
    let* rows :=
      mapM (fun i : label =>
        let '(vf, af, Lf) := i in
        mapM (fun j : label =>
          let '(vi, ai, Li) := j in
          let* x := ME_SO5r3 vf af Lf v al L vi ai Li in
          to_float x) states) states in
    Ok (mat_of_rows (zlen states) rows).

  (** internal_operators.py:322-326 [RepSO5_sqLdim]: [-1 ** L] parses as
      [-(1 ** L)]. *)
  Definition RepSO5_sqLdim (v_min v_max L_min L_max : Z) : res (mat R) :=
    let* states := lbsSO5r3_rngVvarL v_min v_max L_min (Some L_max) in
    let* l := mapM (fun s : label =>
                let '(_, _, L) := s in
                let* d := dimSO3 L in
                let* r := math_sqrt (IZR d) in
                Ok (- powerRZ 1 L * r)%R) states in
    Ok (mat_diag l).

  (** internal_operators.py:341-345 [RepSO5_sqLdiv] (its result is a SymPy
      matrix of floats). *)
  Definition RepSO5_sqLdiv (v_min v_max L_min L_max : Z) : res (mat R) :=
    let* states := lbsSO5r3_rngVvarL v_min v_max L_min (Some L_max) in
    let* l := mapM (fun s : label =>
                let '(_, _, L) := s in
                let* d := dimSO3 L in
                Ok (powerRZ (-1) L / sqrt (IZR d))%R) states in
    Ok (mat_diag l).

  (** Designators in [ys_op]: a symbol or a triple. *)
  Inductive ysop : Set :=
  | YSym (s : osym)
  | YTriple (v al L : Z).

  (** internal_operators.py:493-504: the matrix of one designator. *)
  Definition ys_mat (y : ysop) (v_min v_max L_min L_max : Z) : res (mat R) :=
    match y with
    | YTriple v al L => RepSO5_Y v al L v_min v_max L_min L_max
    | YSym (OSph h) =>
        let '(v, al, L) := SpHarm_Table h in RepSO5_Y v al L v_min v_max L_min L_max
    | YSym SpDiag_sqLdim => RepSO5_sqLdim v_min v_max L_min L_max
    | YSym SpDiag_sqLdiv => RepSO5_sqLdiv v_min v_max L_min L_max
    | YSym _ => Raise ValueError
    end.

  (** internal_operators.py:482-509 [RepSO5r3_Prod_wrk]. *)
  Definition RepSO5r3_Prod (ys_op : list ysop) (v_min v_max L_min L_max : Z) : res (mat R) :=
    match ys_op with
    | [] =>
        let* d := dimSO5r3_rngVvarL v_min v_max L_min (Some L_max) in
        Ok (eye d)
    | y :: ys =>
        let* M0 := ys_mat y v_min v_max L_min L_max in
        fold_left (fun acc y =>
          let* P := acc in
          let* M := ys_mat y v_min v_max L_min L_max in
          matmul P M) ys (Ok M0)
    end.
End Harmonics.

(** internal_operators.py:538-547 [NumSO5r3_Prod]. *)
Definition NumSO5r3_Prod (ys_op : list ysop) : Z :=
  fold_left (fun ct y =>
    match y with
    | YTriple _ _ _ => ct + 1
    | YSym (OSph _) => ct + 1
    | YSym _ => ct
    end) ys_op 0.
