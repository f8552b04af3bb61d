(** Model of the scalar arithmetic of src/acmpy in IEEE 754 binary64, the
    arithmetic of Python's [float] and NumPy's [float64], with signed zeros,
    infinities and NaN.  The other files of the model compute with real numbers;
    this one states what rounding does to the functions that have no loop over
    floats.  Numbers are those of Flocq ([binary_float 53 1024], one NaN),
    operations round to nearest, ties to even.
    Simplifications: [x ** 2] is [x * x]; the warnings that NumPy prints for
    overflow, invalid operations and division by zero are not modelled. *)

From Coq Require Import ZArith Reals List.
From Flocq Require Import Core BinarySingleNaN.
From Verif Require Import PyBase Compat.
Open Scope Z_scope.

Definition double : Type := binary_float 53 1024.

Definition prec_ok : Prec_gt_0 53 := eq_refl.
Definition emax_ok : Prec_lt_emax 53 1024 := eq_refl.

(** The number a double stands for (0 for infinities and NaN), and whether it
    stands for one. *)
Definition real : double -> R := @B2R 53 1024.
Definition finite : double -> bool := @is_finite 53 1024.

(** Python's [+], [-], [*] of floats; [/] of NumPy floats; unary [-]; [abs]. *)
Definition dplus : double -> double -> double := @Bplus 53 1024 prec_ok emax_ok mode_NE.
Definition dminus : double -> double -> double := @Bminus 53 1024 prec_ok emax_ok mode_NE.
Definition dmult : double -> double -> double := @Bmult 53 1024 prec_ok emax_ok mode_NE.
Definition ddiv : double -> double -> double := @Bdiv 53 1024 prec_ok emax_ok mode_NE.
Definition dopp : double -> double := @Bopp 53 1024.
Definition dabs : double -> double := @Babs 53 1024.

(** Comparisons; false if an operand is NaN. *)
Definition dlt : double -> double -> bool := @Bltb 53 1024.
Definition dle : double -> double -> bool := @Bleb 53 1024.
Definition deq : double -> double -> bool := @Beqb 53 1024.

(** The double nearest to [m * 2^e]: a literal of the source. *)
Definition literal (m e : Z) : double := @binary_normalize 53 1024 prec_ok emax_ok mode_NE m e false.

(** The conversion of an int operand to float: nearest double, OverflowError if
    there is none. *)
Definition of_int (n : Z) : res double :=
  let x := literal n 0 in if finite x then Ok x else Raise OverflowError.

(** [math.sqrt]. *)
Definition dsqrt (x : double) : res double :=
  if dlt x (literal 0 0) then Raise ValueError
  else Ok (@Bsqrt 53 1024 prec_ok emax_ok mode_NE x).

(** [math.floor]. *)
Definition dfloor (x : double) : res Z :=
  match x with
  | B754_zero _ => Ok 0
  | B754_infinity _ => Raise OverflowError
  | B754_nan => Raise ValueError
  | B754_finite s m e _ =>
      let z := if s : bool then Z.neg m else Z.pos m in
      Ok (if 0 <=? e then z * 2 ^ e else z / 2 ^ (- e))
  end.

(** globals.py:180-188 [lambda_davi_fun], where [C] is [abeta0 ** 4]
    (globals.py:1234). *)
Definition lambda_davi_fun (C : double) : Z -> res Z := fun v =>
  check require_nonnegint v ;;
  let* n := of_int ((v + 1) ^ 2) in
  let* a := dsqrt (dplus n C) in
  let* b := dsqrt (dplus (literal 9 (-2)) C) in
  let* diffint := dfloor (dminus a b) in
  Ok (if is_odd (diffint - v) then diffint + 1 else diffint).

(** [math.sqrt((lambdaa + mu_i - 1) * mu_i)] and
    [math.sqrt((lambdaa + mu_i) * (mu_i + 1))], which occur in several of the
    functions below. *)
Definition lower_root (lambdaa : double) (mu_i : Z) : res double :=
  let* m := of_int mu_i in
  dsqrt (dmult (dminus (dplus lambdaa m) (literal 1 0)) m).
Definition upper_root (lambdaa : double) (mu_i : Z) : res double :=
  let* m := of_int mu_i in
  let* m1 := of_int (mu_i + 1) in
  dsqrt (dmult (dplus lambdaa m) m1).

(** radial_space.py:127-128 [ME_Radial_S0]. *)
Definition ME_Radial_S0 (lambdaa : double) (mu_f mu_i : Z) : res double :=
  if mu_f =? mu_i then
    let* m := of_int mu_i in Ok (dplus (ddiv lambdaa (literal 2 0)) m)
  else Ok (literal 0 0).

(** radial_space.py:138-139 [ME_Radial_Sp]. *)
Definition ME_Radial_Sp (lambdaa : double) (mu_f mu_i : Z) : res double :=
  if mu_f =? mu_i + 1 then upper_root lambdaa mu_i else Ok (literal 0 0).

(** radial_space.py:149-150 [ME_Radial_Sm]. *)
Definition ME_Radial_Sm (lambdaa : double) (mu_f mu_i : Z) : res double :=
  if mu_f =? mu_i - 1 then lower_root lambdaa mu_i else Ok (literal 0 0).

(** radial_operators.py:45-53 [ME_Radial_b2]. *)
Definition ME_Radial_b2 (lambdaa : double) (mu_f mu_i : Z) : res double :=
  if mu_f =? mu_i - 1 then lower_root lambdaa mu_i
  else if mu_f =? mu_i then
    let* m := of_int (2 * mu_i) in Ok (dplus lambdaa m)
  else if mu_f =? mu_i + 1 then upper_root lambdaa mu_i
  else Ok (literal 0 0).

(** radial_space.py:250-258 [ME_Radial_bDb]. *)
Definition ME_Radial_bDb (lambdaa : double) (mu_f mu_i : Z) : res double :=
  if mu_f =? mu_i - 1 then lower_root lambdaa mu_i
  else if mu_f =? mu_i then Ok (literal (-1) (-1))
  else if mu_f =? mu_i + 1 then let* s := upper_root lambdaa mu_i in Ok (dopp s)
  else Ok (literal 0 0).

(** radial_space.py:273-279 [ME_Radial_b_pl]. *)
Definition ME_Radial_b_pl (lambdaa : double) (mu_f mu_i : Z) : res double :=
  if mu_f =? mu_i - 1 then let* m := of_int mu_i in dsqrt m
  else if mu_f =? mu_i then let* m := of_int mu_i in dsqrt (dplus lambdaa m)
  else Ok (literal 0 0).

(** radial_space.py:359-365 [ME_Radial_b_ml]. *)
Definition ME_Radial_b_ml (lambdaa : double) (mu_f mu_i : Z) : res double :=
  if mu_f =? mu_i + 1 then let* m := of_int mu_f in dsqrt m
  else if mu_f =? mu_i then
    let* m := of_int mu_i in dsqrt (dminus (dplus lambdaa m) (literal 1 0))
  else Ok (literal 0 0).

(** A two-dimensional array of doubles. *)
Record darray := mkDarray { d_rows : Z; d_cols : Z; d_item : Z -> Z -> double }.

(** eigenvalues.py:66-78 [Eigenfiddle]; [eigh] is [np.linalg.eigh]. *)
Definition Eigenfiddle {A} (eigh : darray -> res A) (H : darray) : res A :=
  check raise_if (negb (d_rows H =? d_cols H)) ValueError ;;
  eigh (mkDarray (d_rows H) (d_cols H)
          (fun i j => ddiv (dplus (d_item H i j) (d_item H j i)) (literal 2 0))).

(** full_space.py:510: the number printed for an eigenvalue. *)
Definition shown_eigenvalue (val eigen_low eig_sft : double) : double :=
  ddiv (dminus val eigen_low) eig_sft.

(** full_space.py:1309: the scale factor that [ACM_Adapt] sets. *)
Definition adapted_factor (val eigen_low eig_fit : double) : double :=
  ddiv (dminus val eigen_low) eig_fit.

(** globals.py:64-65, 71-72, 78-79: the rate functions; [dimSO3(L)] is 2L+1 and
    L is an angular momentum. *)
Definition quad_rat_fun (Li Lf : Z) (Mel : double) : res double :=
  let* df := of_int (2 * Lf + 1) in
  let* di := of_int (2 * Li + 1) in
  Ok (ddiv (dmult (dmult Mel Mel) df) di).
Definition mel_rat_fun (Li Lf : Z) (Mel : double) : res double :=
  let* df := of_int (2 * Lf + 1) in
  Ok (dmult (dmult Mel Mel) df).
Definition unit_rat_fun (Li Lf : Z) (Mel : double) : res double := Ok (dmult Mel Mel).

(** The standard library's [math.isclose(a, b, abs_tol=abs_tol)]; the relative
    tolerance is the double nearest to 1e-9. *)
Definition rel_tol : double := literal 4835703278458517 (-82).
Definition infinite (x : double) : bool := match x with B754_infinity _ => true | _ => false end.
Definition isclose (a b abs_tol : double) : res bool :=
  if dlt abs_tol (literal 0 0) then Raise ValueError
  else if deq a b then Ok true
  else if infinite a || infinite b then Ok false
  else
    let diff := dabs (dminus b a) in
    Ok (dle diff (dabs (dmult rel_tol b)) || dle diff (dabs (dmult rel_tol a)) || dle diff abs_tol).

(** Python [all] over a generator whose elements may raise. *)
Fixpoint all_of {A} (f : A -> res bool) (l : list A) : res bool :=
  match l with
  | [] => Ok true
  | x :: r => let* b := f x in if b : bool then all_of f r else Ok false
  end.

(** compat.py:113-115 [is_zeros]; 118-122 [is_close]. *)
Definition is_zeros (zs : list double) (abs_tol : double) : res bool :=
  all_of (fun z => isclose z (literal 0 0) abs_tol) zs.
Definition is_close (xs ys : list double) (abs_tol : double) : res bool :=
  if negb (Nat.eqb (length xs) (length ys)) then Ok false
  else is_zeros (map (fun p => dminus (fst p) (snd p)) (combine xs ys)) abs_tol.
