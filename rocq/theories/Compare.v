(** Model of the comparison and conversion helpers of src/acmpy/compat.py.
    Floats are real numbers, so infinities and NaN are out of scope. *)

From Coq Require Import Reals.
From Verif Require Import PyBase.
Open Scope R_scope.

Definition rle (x y : R) : bool := if Rle_dec x y then true else false.

(** The standard library's [math.isclose(a, b, abs_tol=abs_tol)], with its
    default relative tolerance 1e-9 (called at compat.py:115). *)
Definition isclose (a b abs_tol : R) : res bool :=
  if Rlt_dec abs_tol 0 then Raise ValueError
  else if Req_EM_T a b then Ok true
  else
    let diff := Rabs (b - a) in
    Ok (rle diff (Rabs (/ 10 ^ 9 * b)) || rle diff (Rabs (/ 10 ^ 9 * a)) || rle diff abs_tol).

(** Python [all] over a generator whose elements may raise: stops at the first
    false element. *)
Fixpoint all_of {A} (f : A -> res bool) (l : list A) : res bool :=
  match l with
  | [] => Ok true
  | x :: r => let* b := f x in if b : bool then all_of f r else Ok false
  end.

(** compat.py:113-115 [is_zeros]. *)
Definition is_zeros (zs : list R) (abs_tol : R) : res bool := all_of (fun z => isclose z 0 abs_tol) zs.

(** compat.py:118-122 [is_close]. *)
Definition is_close (xs ys : list R) (abs_tol : R) : res bool :=
  if negb (Nat.eqb (length xs) (length ys)) then Ok false
  else is_zeros (map (fun p => fst p - snd p) (combine xs ys)) abs_tol.

(** compat.py:125-127 [is_sorted]; [vals[:-1]] drops the last element and
    [vals[1:]] the first. *)
Definition is_sorted (vals : list R) : bool :=
  forallb (fun p => rle (fst p) (snd p)) (combine (removelast vals) (tl vals)).

(** A NumPy array: element type (true for float64), shape, elements in row
    major order, which is the order of [.flat]. *)
Record ndarray := { is_float64 : bool; nd_shape : list nat; flat : list R }.

(** A SymPy [Matrix]: rows, columns, elements in the order of iteration. *)
Record sympy_matrix := { m_rows : nat; m_cols : nat; m_flat : list R }.

(** compat.py:166-168 [ndarray_to_list]. *)
Definition ndarray_to_list (vals : ndarray) : list R := flat vals.

(** compat.py:130-132 [is_nd_zeros]. *)
Definition is_nd_zeros (zs : ndarray) (abs_tol : R) : res bool := is_zeros (ndarray_to_list zs) abs_tol.

(** compat.py:135-137, 140-142, 145-147, 150-155. *)
Definition is_nd_float (x : ndarray) : bool := is_float64 x.
Definition is_nd_vector (v : ndarray) : bool := is_nd_float v && Nat.eqb (length (nd_shape v)) 1.
Definition is_nd_matrix (m : ndarray) : bool := is_nd_float m && Nat.eqb (length (nd_shape m)) 2.
Definition is_nd_square (m : ndarray) : bool :=
  if negb (is_nd_matrix m) then false
  else match nd_shape m with
       | [r; c] => Nat.eqb r c
       | _ => false (* not reached *)
       end.

(** compat.py:171-173 [Matrix_to_ndarray]; [reshape] needs as many elements as
    the new shape has. *)
Definition Matrix_to_ndarray (M : sympy_matrix) : res ndarray :=
  if Nat.eqb (length (m_flat M)) (m_rows M * m_cols M)
  then Ok {| is_float64 := true; nd_shape := [m_rows M; m_cols M]; flat := m_flat M |}
  else Raise ValueError.

(** Element [i, j] of a two-dimensional array. *)
Definition nd_item (M : ndarray) (i j : nat) : res R :=
  match nd_shape M with
  | [r; c] =>
      if Nat.ltb i r && Nat.ltb j c then
        match nth_error (flat M) (i * c + j) with Some x => Ok x | None => Raise IndexError end
      else Raise IndexError
  | _ => Raise IndexError
  end.

(** compat.py:176-178 [ndarray_to_Matrix]; [Matrix] of a shape with other than
    two dimensions raises TypeError. *)
Definition ndarray_to_Matrix (M : ndarray) : res sympy_matrix :=
  match nd_shape M with
  | [r; c] =>
      let* l := mapM (fun p => nd_item M (fst p) (snd p)) (list_prod (seq 0 r) (seq 0 c)) in
      Ok {| m_rows := r; m_cols := c; m_flat := l |}
  | _ => Raise TypeError
  end.
