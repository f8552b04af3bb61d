(** Arguments as the Python values they are: integers, booleans, floats and
    other objects, the validators of src/acmpy/compat.py with their type tests,
    and the memoised functions of full_operators.py, radial_space.py and
    internal_operators.py called with such arguments.

    The other models of this development have integers where the code expects
    integers; here the type tests, and what [functools.cache] takes to be the
    same arguments, are modelled. *)

From Coq Require Import Reals.
From Verif Require Import PyBase Compat Matrix Spherical FullLabels RadialME RadialOps Operators FullOps.
Open Scope Z_scope.

(** Numbers passed as arguments.  Simplification: a float is a real number, so
    infinities and nan are left out. *)
Inductive pynum : Type :=
| NInt (n : Z)
| NBool (b : bool)
| NFloat (x : R).

(** Any argument: a number, or a hashable object of another type (None, a
    string, ...), named by an integer. *)
Inductive pyarg : Type :=
| ANum (x : pynum)
| AOther (k : Z).

(** The number denoted: True is 1 and False is 0. *)
Definition num_val (x : pynum) : R :=
  match x with
  | NInt n => IZR n
  | NBool b => if b then 1%R else 0%R
  | NFloat x => x
  end.

(** Python's [==] on these values: numbers are compared by value whatever their
    types. *)
Definition num_eqb (x y : pynum) : bool := Reqb (num_val x) (num_val y).
Definition py_eqb (a b : pyarg) : bool :=
  match a, b with
  | ANum x, ANum y => num_eqb x y
  | AOther j, AOther k => j =? k
  | _, _ => false
  end.

(** [isinstance(value, int)]: bool is a subclass of int. *)
Definition as_int (a : pyarg) : option Z :=
  match a with
  | ANum (NInt n) => Some n
  | ANum (NBool b) => Some (if b then 1 else 0)
  | _ => None
  end.

(** ** compat.py *)

(** compat.py:31-34 [require_int]; the model returns the integer so that the
    code after the test can use it. *)
Definition t_require_int (value : pyarg) : res Z :=
  match as_int value with Some n => Ok n | None => Raise TypeError end.

(** compat.py:37-41 [require_nonnegint]. *)
Definition t_require_nonnegint (value : pyarg) : res Z :=
  let* n := t_require_int value in
  check raise_if (n <? 0) ValueError ;;
  Ok n.

(** compat.py:44-53 [require_nonnegint_range]. *)
Definition t_require_nonnegint_range (value_min value_max : pyarg) : res (Z * Z) :=
  let* lo := t_require_nonnegint value_min in
  let* hi := t_require_nonnegint value_max in
  check raise_if (hi <? lo) ValueError ;;
  Ok (lo, hi).

(** compat.py:56-60 [require_posint]. *)
Definition t_require_posint (value : pyarg) : res Z :=
  let* n := t_require_nonnegint value in
  check raise_if (n =? 0) ValueError ;;
  Ok n.

(** compat.py:63-67 [is_even], 70-74 [is_odd]. *)
Definition t_is_even (n : pyarg) : res bool := let* k := t_require_int n in Ok (k mod 2 =? 0).
Definition t_is_odd (n : pyarg) : res bool := let* k := t_require_int n in Ok (k mod 2 =? 1).

(** compat.py:77-82 [iquo], 85-90 [irem]. *)
Definition t_iquo (m n : pyarg) : res Z :=
  let* a := t_require_nonnegint m in
  let* b := t_require_posint n in
  Ok (a / b).
Definition t_irem (m n : pyarg) : res Z :=
  let* a := t_require_nonnegint m in
  let* b := t_require_posint n in
  Ok (a mod b).

(** ** The momentum matrices *)

(** Arguments of [RepXspace_Pi] and its fellows.  Simplification: [anorm] and
    [lambda_base] are floats here. *)
Record targs := mkTA {
  ta_anorm : R; ta_lambda_base : R;
  ta_nu_min : pyarg; ta_nu_max : pyarg; ta_v_min : pyarg; ta_v_max : pyarg;
  ta_L_min : pyarg; ta_L_max : pyarg }.

Inductive tname : Type := TPi | TPiPi (PiPi_L : pyarg) | TPiqPi.

(** full_operators.py:775-777, 977-980, 1224-1226: the validations at the start
    of the bodies. *)
Definition ta_check (a : targs) : res xargs :=
  let* nu := t_require_nonnegint_range (ta_nu_min a) (ta_nu_max a) in
  let* v := t_require_nonnegint_range (ta_v_min a) (ta_v_max a) in
  let* L := t_require_nonnegint_range (ta_L_min a) (ta_L_max a) in
  Ok (mkXA (ta_anorm a) (ta_lambda_base a) (fst nu) (snd nu) (fst v) (snd v) (fst L) (snd L)).

(** What [functools.cache] compares: all the arguments, with [==]. *)
Definition tname_eqb (m n : tname) : bool :=
  match m, n with
  | TPi, TPi => true
  | TPiPi x, TPiPi y => py_eqb x y
  | TPiqPi, TPiqPi => true
  | _, _ => false
  end.
Definition targs_eqb (a b : targs) : bool :=
  Reqb (ta_anorm a) (ta_anorm b) && Reqb (ta_lambda_base a) (ta_lambda_base b)
  && py_eqb (ta_nu_min a) (ta_nu_min b) && py_eqb (ta_nu_max a) (ta_nu_max b)
  && py_eqb (ta_v_min a) (ta_v_min b) && py_eqb (ta_v_max a) (ta_v_max b)
  && py_eqb (ta_L_min a) (ta_L_min b) && py_eqb (ta_L_max a) (ta_L_max b).

(** ** functools.cache *)

(** A session with one memoised function (or several, the name being part of
    the key): calls, [cache_clear], and changes of the setting that the bodies
    read.  functools.cache tests the arguments against those remembered before
    it runs the body, and remembers nothing when the body raises. *)
Section Cache.
  Context {E K V : Type}.
  (** [==] of the arguments, and the body. *)
  Variable keq : K -> K -> bool.
  Variable body : E -> K -> res V.

  Inductive cevent := CCall (k : K) | CClear | CSet (e : E).
  Record cstate := mkC { c_env : E; c_table : list (K * V) }.

  Fixpoint c_get (k : K) (t : list (K * V)) : option V :=
    match t with
    | [] => None
    | (k', m) :: t' => if keq k k' then Some m else c_get k t'
    end.

  Definition c_call (k : K) (s : cstate) : res V * cstate :=
    match c_get k (c_table s) with
    | Some m => (Ok m, s)
    | None =>
        match body (c_env s) k with
        | Ok m => (Ok m, mkC (c_env s) ((k, m) :: c_table s))
        | Raise e => (Raise e, s)
        end
    end.

  Definition c_step (s : cstate) (ev : cevent) : cstate :=
    match ev with
    | CCall k => snd (c_call k s)
    | CClear => mkC (c_env s) []
    | CSet e => mkC e (c_table s)
    end.

  (** The state after a history that began in a new process. *)
  Definition c_after (e : E) (h : list cevent) : cstate := fold_left c_step h (mkC e []).
  (** The answer to a call made after the history [h]. *)
  Definition c_answer (e : E) (h : list cevent) (k : K) : res V := fst (c_call k (c_after e h)).
End Cache.
Arguments cevent E K : clear implicits.

Section Typed.
  (** As in FullOps.v: the radial products, the CG function. *)
  Variable RP : list rsym -> R -> R -> Z -> Z -> Z -> Z -> res (mat R).
  Variable CG : Z -> Z -> Z -> Z -> Z -> Z -> Z -> Z -> Z -> res R.

  (** full_operators.py:769-826 [RepXspace_Pi], 970-1050 [RepXspace_PiPi],
      1218-1324 [RepXspace_PiqPi]: the bodies.  After the validations every
      argument is an integer, and a bool takes part in the arithmetic as the
      integer it is. *)
  Definition t_body (lam : Z -> res Z) (k : tname * targs) : res (mat R) :=
    match fst k with
    | TPi => let* x := ta_check (snd k) in xcompute RP CG lam NPi x
    | TPiPi L =>
        let* l := t_require_nonnegint L in
        let* x := ta_check (snd k) in
        xcompute RP CG lam (NPiPi l) x
    | TPiqPi => let* x := ta_check (snd k) in xcompute RP CG lam NPiqPi x
    end.
  Definition t_keq (j k : tname * targs) : bool :=
    tname_eqb (fst j) (fst k) && targs_eqb (snd j) (snd k).

  (** internal_operators.py:275-281 [RepSO5_Y_rem] with integer v, al, L:
      spherical_space.py:398-405 tests the ranges. *)
  Record yargs := mkYA {
    ya_v : Z; ya_al : Z; ya_L : Z;
    ya_v_min : pyarg; ya_v_max : pyarg; ya_L_min : pyarg; ya_L_max : pyarg }.
  Definition y_body (_ : unit) (a : yargs) : res (mat R) :=
    let* v := t_require_nonnegint_range (ya_v_min a) (ya_v_max a) in
    let* _ := t_require_nonnegint (ya_L_min a) in
    let* L := t_require_nonnegint_range (ya_L_min a) (ya_L_max a) in
    RepSO5_Y CG (ya_v a) (ya_al a) (ya_L a) (fst v) (snd v) (fst L) (snd L).
  Definition y_keq (a b : yargs) : bool :=
    (ya_v a =? ya_v b) && (ya_al a =? ya_al b) && (ya_L a =? ya_L b)
    && py_eqb (ya_v_min a) (ya_v_min b) && py_eqb (ya_v_max a) (ya_v_max b)
    && py_eqb (ya_L_min a) (ya_L_min b) && py_eqb (ya_L_max a) (ya_L_max b).
End Typed.

(** ** Radial matrices *)

(** The matrix element functions passed to [RepRadial]. *)
Inductive rfun : Set :=
| F_Sm | F_S0 | F_Sp | F_b2 | F_bm2 | F_D2b | F_bDb
| F_b_pl | F_bm_pl | F_Db_pl | F_b_ml | F_bm_ml | F_Db_ml.
Definition rfun_eqb (f g : rfun) : bool :=
  match f, g with
  | F_Sm, F_Sm | F_S0, F_S0 | F_Sp, F_Sp | F_b2, F_b2 | F_bm2, F_bm2 | F_D2b, F_D2b | F_bDb, F_bDb
  | F_b_pl, F_b_pl | F_bm_pl, F_bm_pl | F_Db_pl, F_Db_pl
  | F_b_ml, F_b_ml | F_bm_ml, F_bm_ml | F_Db_ml, F_Db_ml => true
  | _, _ => false
  end.

Record rargs := mkRA { ra_fun : rfun; ra_lambda : pynum; ra_nu_min : pynum; ra_nu_max : pynum }.

Section Radial.
  Variable Gam : R -> R.
  (** Whether integers have the method [is_integer]: from Python 3.12 on. *)
  Variable int_is_integer : bool.

  (** The value of the matrix element function at a float. *)
  Definition rfun_at (f : rfun) : R -> Z -> Z -> res R :=
    match f with
    | F_Sm => ME_Radial_Sm
    | F_S0 => ME_Radial_S0
    | F_Sp => ME_Radial_Sp
    | F_b2 => ME_Radial_b2
    | F_bm2 => ME_Radial_bm2 Gam
    | F_D2b => ME_Radial_D2b Gam
    | F_bDb => ME_Radial_bDb
    | F_b_pl => ME_Radial_b_pl
    | F_bm_pl => ME_Radial_bm_pl Gam
    | F_Db_pl => ME_Radial_Db_pl Gam
    | F_b_ml => ME_Radial_b_ml
    | F_bm_ml => ME_Radial_bm_ml Gam
    | F_Db_ml => ME_Radial_Db_ml Gam
    end.

  (** The tests [lambdaa.is_integer()] of radial_space.py:174, 298, 384, made on
      a lambda that is an int or a bool. *)
  Definition int_test (f : rfun) (n : Z) : res unit :=
    match f with
    | F_bm2 => check raise_if (n =? -1) ValueError ;; raise_if (negb int_is_integer) AttributeError
    | F_bm_pl | F_bm_ml => raise_if (negb int_is_integer) AttributeError
    | _ => Ok tt
    end.

  (** The matrix element functions (radial_space.py:102-429) of a lambda of any
      numeric type; the other operations of the code (/, sqrt, poch) take
      integers as the numbers they are. *)
  Definition t_ME (f : rfun) (lambdaa : pynum) (mu_f mu_i : Z) : res R :=
    match lambdaa with
    | NFloat x => rfun_at f x mu_f mu_i
    | NInt n => check int_test f n ;; rfun_at f (IZR n) mu_f mu_i
    | NBool b => let n := if b then 1 else 0 in
        check int_test f n ;; rfun_at f (IZR n) mu_f mu_i
    end.

  (** radial_space.py:714-724 [RepRadial]: [nu_max - nu_min + 1] is a float as
      soon as one of them is, and then [range(n)] raises TypeError.
      Simplification: the element type of the array is not modelled. *)
  Definition r_body (_ : unit) (a : rargs) : res (mat R) :=
    match as_int (ANum (ra_nu_min a)), as_int (ANum (ra_nu_max a)) with
    | Some nu_min, Some nu_max => build_matrix (t_ME (ra_fun a) (ra_lambda a)) nu_min nu_max
    | _, _ => Raise TypeError
    end.
  Definition r_keq (a b : rargs) : bool :=
    rfun_eqb (ra_fun a) (ra_fun b) && num_eqb (ra_lambda a) (ra_lambda b)
    && num_eqb (ra_nu_min a) (ra_nu_min b) && num_eqb (ra_nu_max a) (ra_nu_max b).
End Radial.
