(** Model of the first half of src/acmpy/full_space.py: diagonalisation on the
    full space and the angular-momentum block structure. *)

From Coq Require Import Reals.
From Verif Require Import PyBase Compat Spherical FullLabels Matrix.
Open Scope Z_scope.

(** full_space.py:135-137: [enumerate(Lvals[:-1])] compared with the successor. *)
Fixpoint check_increasing (l : list Z) : res unit :=
  match l with
  | x :: ((y :: _) as l') =>
      check raise_if (y <=? x) ValueError ;;
      check_increasing l'
  | _ => Ok tt
  end.

(** full_space.py:128-138 [validate_Lvals]. *)
Definition validate_Lvals (Lvals : list Z) : res unit :=
  check raise_if (match Lvals with [] => true | _ => false end) ValueError ;;
  check mapM require_nonnegint Lvals ;;
  check_increasing Lvals.

Section Dig.
  (** The float type, [RepXspace(ham_op, anorm, lambda_base, nu_min, nu_max,
      v_min, v_max, L_min, L_max)] as a function of its last two arguments,
      [Eigenfiddle], and the outcome of [Op_Tame(ham_op)]. *)
  Context {A : Type}.
  Variable RepX : Z -> option Z -> res (mat A).
  Variable Eig : mat A -> res (list A * mat A).
  Variable tame : bool.
  Variables nu_min nu_max v_min v_max : Z.

  Definition dig_out : Type := (list (list A) * list (mat A) * list Z)%type.

  (** full_space.py:169-179: loop of the tame branch. *)
  Fixpoint dig_tame (Ls : list Z) (acc : dig_out) : res dig_out :=
    match Ls with
    | [] => Ok acc
    | LL :: Ls' =>
        let* sph_dim := dimSO5r3_rngV v_min v_max LL in
        if 0 <? sph_dim then
          let* L_matrix := RepX LL None in
          let* (vals, bases) := Eig L_matrix in
          let '(evs, ebs, Lvals) := acc in
          dig_tame Ls' (evs ++ [vals], ebs ++ [bases], Lvals ++ [LL])
        else dig_tame Ls' acc
    end.

  (** full_space.py:184-195: loop of the other branch. *)
  Fixpoint dig_full (rep : mat A) (rad_dim : Z) (Ls : list Z) (Lstart : Z) (acc : dig_out)
    : res dig_out :=
    match Ls with
    | [] => Ok acc
    | LL :: Ls' =>
        let* sph_dim := dimSO5r3_rngV v_min v_max LL in
        let Lstop := Lstart + rad_dim * sph_dim in
        if 0 <? sph_dim then
          let L_matrix := slice rep (Lstart - 1) Lstop (Lstart - 1) Lstop in
          let* (vals, bases) := Eig L_matrix in
          let '(evs, ebs, Lvals) := acc in
          dig_full rep rad_dim Ls' Lstop (evs ++ [vals], ebs ++ [bases], Lvals ++ [LL])
        else dig_full rep rad_dim Ls' Lstart acc
    end.

  (** full_space.py:141-197 [DigXspace]; the returned [Xparams] tuple merely
      repeats arguments and is omitted. *)
  Definition DigXspace (L_min : Z) (L_max : option Z) : res dig_out :=
    let LLM := match L_max with None => L_min | Some l => l end in
    check require_nonnegint_range nu_min nu_max ;;
    check require_nonnegint_range v_min v_max ;;
    check require_nonnegint_range L_min LLM ;;
    if tame then dig_tame (py_range L_min (LLM + 1)) ([], [], [])
    else
      let* rep := RepX L_min (Some LLM) in
      dig_full rep (dimRadial nu_min nu_max) (py_range L_min (LLM + 1)) 1 ([], [], []).
End Dig.

(** full_space.py:266-315 [LBlockFullSpace]: attributes nu_min..v_max, Lvals and
    the dict Lblocks (insertion-ordered list of key/value pairs). *)
Record LBlockFullSpace := {
  fs_nu_min : Z; fs_nu_max : Z; fs_v_min : Z; fs_v_max : Z;
  fs_Lvals : list Z;
  fs_blocks : list (Z * (Z * Z)) }.

(** full_space.py:295-297 [dimL]. *)
Definition dimL (nu_min nu_max v_min v_max : Z) (Lvals : list Z) (L : Z) : res Z :=
  if existsb (Z.eqb L) Lvals then dimXspace nu_min nu_max v_min v_max L None else Ok 0.

(** full_space.py:299-301 [dim]. *)
Definition fs_dim (nu_min nu_max v_min v_max : Z) (Lvals : list Z) : res Z :=
  let* ds := mapM (dimL nu_min nu_max v_min v_max Lvals) Lvals in
  Ok (zsum ds).

(** np.cumsum. *)
Fixpoint cumsum_from (acc : Z) (l : list Z) : list Z :=
  match l with
  | [] => []
  | x :: l' => (acc + x) :: cumsum_from (acc + x) l'
  end.

Fixpoint zip3 {A B C} (a : list A) (b : list B) (c : list C) : list (A * (B * C)) :=
  match a, b, c with
  | x :: a', y :: b', z :: c' => (x, (y, z)) :: zip3 a' b' c'
  | _, _, _ => []
  end.

(** full_space.py:303-309 [blocks]. *)
Definition fs_mk_blocks (nu_min nu_max v_min v_max : Z) (Lvals : list Z)
  : res (list (Z * (Z * Z))) :=
  let* dims := mapM (dimL nu_min nu_max v_min v_max Lvals) Lvals in
  let ends := cumsum_from 0 dims in
  let starts := 0 :: removelast ends in
  Ok (zip3 Lvals starts ends).

(** full_space.py:280-293 [__init__]. *)
Definition LBlockFullSpace_init (nu_min nu_max v_min v_max : Z) (Lvals : list Z)
  : res LBlockFullSpace :=
  check require_nonnegint_range nu_min nu_max ;;
  check require_nonnegint_range v_min v_max ;;
  let* bs := fs_mk_blocks nu_min nu_max v_min v_max Lvals in
  Ok {| fs_nu_min := nu_min; fs_nu_max := nu_max; fs_v_min := v_min; fs_v_max := v_max;
        fs_Lvals := Lvals; fs_blocks := bs |}.

(** Lookup in a dict built by a comprehension: the last value given for a key. *)
Fixpoint dict_get {V} (k : Z) (d : list (Z * V)) : option V :=
  match d with
  | [] => None
  | (k', v) :: d' =>
      match dict_get k d' with
      | Some w => Some w
      | None => if k =? k' then Some v else None
      end
  end.

(** full_space.py:311-315 [get_block_for_L]. *)
Definition get_block_for_L (fs : LBlockFullSpace) (L : Z) : res (Z * Z) :=
  match dict_get L (fs_blocks fs) with
  | Some b => Ok b
  | None => Raise ValueError
  end.

(** full_space.py:330-340 [LBlockNDFloatArray.__init__]: only the squareness
    check is modelled (dimension and dtype are fixed by typing). *)
Definition LBlockNDFloatArray_init {A} (m : mat A) : res (mat A) :=
  check raise_if (negb (nrows m =? ncols m)) ValueError ;; Ok m.

(** full_space.py:342-346 [get_block]. *)
Definition get_block {A} (m : mat A) (fs : LBlockFullSpace) (L_row L_col : Z) : res (mat A) :=
  let* (r0, r1) := get_block_for_L fs L_row in
  let* (c0, c1) := get_block_for_L fs L_col in
  Ok (slice m r0 r1 c0 c1).

(** full_space.py:348-352 [set_block]. *)
Definition set_block {A} (m : mat A) (fs : LBlockFullSpace) (L_row L_col : Z) (b : mat A)
  : res (mat A) :=
  let* (r0, r1) := get_block_for_L fs L_row in
  let* (c0, c1) := get_block_for_L fs L_col in
  slice_set m r0 r1 c0 c1 b.

(** Written entries are [Some]; an entry of [np.empty] that was never written is
    [None]. *)
Definition mat_some (m : mat R) : mat (option R) :=
  mkMat (nrows m) (ncols m) (fun i j => Some (ent m i j)).
Definition np_empty (r c : Z) : mat (option R) := mkMat r c (fun _ _ => None).

Definition head_last (l : list Z) : res (Z * Z) :=
  match l with
  | [] => Raise IndexError
  | x :: _ => Ok (x, last l x)
  end.

(** full_space.py:371-373: the two nested [zip] loops over the blocks. *)
Fixpoint amp_cols (fs : LBlockFullSpace) (tran : mat R) (Pinv : mat R) (L_row : Z)
  (cols : list (mat R * Z)) (result : mat (option R)) : res (mat (option R)) :=
  match cols with
  | [] => Ok result
  | (P, L_col) :: cols' =>
      let* b := get_block tran fs L_row L_col in
      let* x := matmul Pinv b in
      let* y := matmul x P in
      let* result' := set_block result fs L_row L_col (mat_some y) in
      amp_cols fs tran Pinv L_row cols' result'
  end.

Fixpoint amp_rows (fs : LBlockFullSpace) (tran : mat R) (cols : list (mat R * Z))
  (rows : list (mat R * Z)) (result : mat (option R)) : res (mat (option R)) :=
  match rows with
  | [] => Ok result
  | (Pinv, L_row) :: rows' =>
      let* result' := amp_cols fs tran Pinv L_row cols result in
      amp_rows fs tran cols rows' result'
  end.

(** full_space.py:356-375 [AmpXspeig]; [RepX L_min L_max] is
    [RepXspace(tran_op, ...)], [inv] is [np.linalg.inv].  The result is returned
    with the space that gives it its block structure. *)
Definition AmpXspeig (RepX : Z -> Z -> res (mat R)) (inv : mat R -> res (mat R))
  (eigen_bases : list (mat R)) (nu_min nu_max v_min v_max : Z) (Lvals : list Z)
  : res (mat (option R) * LBlockFullSpace) :=
  check validate_Lvals Lvals ;;
  let* fs := LBlockFullSpace_init nu_min nu_max v_min v_max Lvals in
  let* (L_min, L_max) := head_last Lvals in
  let* tran_mat := RepX L_min L_max in
  let* tran := LBlockNDFloatArray_init tran_mat in
  let* result := LBlockNDFloatArray_init (np_empty (nrows tran_mat) (ncols tran_mat)) in
  let* eigen_invs := mapM inv eigen_bases in
  let* result := amp_rows fs tran (combine eigen_bases Lvals) (combine eigen_invs Lvals) result in
  Ok (result, fs).
