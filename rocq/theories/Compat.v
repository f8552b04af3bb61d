(** Model of src/acmpy/compat.py: integer validators and integer division.
    Simplification: arguments are integers by typing, so the [TypeError] raised
    by [require_int] (lines 31-34) for non-integers cannot occur in the model. *)

From Verif Require Import PyBase.

(** compat.py:37-41 [require_nonnegint]. *)
Definition require_nonnegint (value : Z) : res unit :=
  raise_if (value <? 0) ValueError.

(** compat.py:44-53 [require_nonnegint_range]. *)
Definition require_nonnegint_range (value_min value_max : Z) : res unit :=
  check require_nonnegint value_min ;;
  check require_nonnegint value_max ;;
  raise_if (value_max <? value_min) ValueError.

(** compat.py:56-60 [require_posint]. *)
Definition require_posint (value : Z) : res unit :=
  check require_nonnegint value ;;
  raise_if (value =? 0) ValueError.

(** compat.py:63-67 [is_even]. *)
Definition is_even (n : Z) : bool := n mod 2 =? 0.

(** compat.py:70-74 [is_odd]. *)
Definition is_odd (n : Z) : bool := n mod 2 =? 1.

(** compat.py:77-82 [iquo]. *)
Definition iquo (m n : Z) : res Z :=
  check require_nonnegint m ;;
  check require_posint n ;;
  Ok (m / n).

(** compat.py:85-90 [irem]. *)
Definition irem (m n : Z) : res Z :=
  check require_nonnegint m ;;
  check require_posint n ;;
  Ok (m mod n).
