(** Model of src/acmpy/spherical_space.py: dimensions and label lists of the
    SO(5) > SO(3) spherical space. *)

From Verif Require Import PyBase Compat.

(** spherical_space.py:14 [SO5SO3Label] = (seniority v, alpha, L). *)
Definition label : Type := (Z * Z * Z)%type.

(** spherical_space.py:135-138 [dimSO3]. *)
Definition dimSO3 (L : Z) : res Z :=
  check require_nonnegint L ;;
  Ok (2 * L + 1).

(** spherical_space.py:142-145 [dimSO5]. *)
Definition dimSO5 (v : Z) : res Z :=
  check require_nonnegint v ;;
  Ok ((v + 1) * (v + 2) * (2 * v + 3) / 6).

(** spherical_space.py:152-155 [dimSO5r3_allL]. *)
Definition dimSO5r3_allL (v : Z) : res Z :=
  check require_nonnegint v ;;
  let* q := iquo (v * (v + 3)) 6 in
  Ok (q + 1).

(** spherical_space.py:162-168 [dimSO5r3_rngVallL]. *)
Definition dimSO5r3_rngVallL (v_min v_max : Z) : res Z :=
  check require_nonnegint v_min ;;
  check require_nonnegint v_max ;;
  check raise_if (v_max <? v_min) ValueError ;;
  let* ds := mapM dimSO5r3_allL (py_range v_min (v_max + 1)) in
  Ok (zsum ds).

(** spherical_space.py:194-213 [dimSO5r3]. *)
Definition dimSO5r3 (v L : Z) : res Z :=
  if (v <? 0) || (L <? 0) || (2 * v <? L) then Ok 0
  else
    let* r := irem L 2 in
    let two_b := L + 3 * r in
    check py_assert (two_b mod 2 =? 0) ;;
    let b := two_b / 2 in
    let* d :=
      if b <=? v then
        let* q := iquo (v - b) 3 in Ok (1 + q)
      else Ok 0 in
    if L - 2 <=? v then
      let* q := iquo (v - L + 2) 3 in Ok (d - q)
    else Ok d.

(** spherical_space.py:224-228 [dimSO5r3_rngL]. *)
Definition dimSO5r3_rngL (v L_min L_max : Z) : res Z :=
  check require_nonnegint v ;;
  check require_nonnegint_range L_min L_max ;;
  let* ds := mapM (fun j => dimSO5r3 v j) (py_range L_min (L_max + 1)) in
  Ok (zsum ds).

(** spherical_space.py:235-239 [dimSO5r3_rngV]. *)
Definition dimSO5r3_rngV (v_min v_max L : Z) : res Z :=
  check require_nonnegint_range v_min v_max ;;
  check require_nonnegint L ;;
  let* ds := mapM (fun v => dimSO5r3 v L) (py_range v_min (v_max + 1)) in
  Ok (zsum ds).

(** spherical_space.py:247-254 [dimSO5r3_rngVrngL]. *)
Definition dimSO5r3_rngVrngL (v_min v_max L_min L_max : Z) : res Z :=
  check require_nonnegint_range v_min v_max ;;
  check require_nonnegint_range L_min L_max ;;
  let* ds := concatM (fun v =>
               mapM (fun L => dimSO5r3 v L) (py_range L_min (L_max + 1)))
               (py_range v_min (v_max + 1)) in
  Ok (zsum ds).

(** spherical_space.py:264-270 [dimSO5r3_rngVvarL]; [None] is the omitted
    optional argument. *)
Definition dimSO5r3_rngVvarL (v_min v_max L_min : Z) (L_max : option Z) : res Z :=
  match L_max with
  | Some L_max => dimSO5r3_rngVrngL v_min v_max L_min L_max
  | None => dimSO5r3_rngV v_min v_max L_min
  end.

(** spherical_space.py:293-298 [lbsSO5r3_allL]; pairs (alpha, L). *)
Definition lbsSO5r3_allL (v : Z) : res (list (Z * Z)) :=
  check require_nonnegint v ;;
  concatM (fun LL =>
    let* d := dimSO5r3 v LL in
    Ok (map (fun a => (a, LL)) (py_range 1 (d + 1))))
    (py_range 0 (2 * v + 1)).

(** spherical_space.py:312-318 [lbsSO5r3_rngVallL]. *)
Definition lbsSO5r3_rngVallL (v_min v_max : Z) : res (list label) :=
  check require_nonnegint_range v_min v_max ;;
  concatM (fun LL =>
    concatM (fun u =>
      let* d := dimSO5r3 u LL in
      Ok (map (fun a => (u, a, LL)) (py_range 1 (d + 1))))
      (py_range v_min (v_max + 1)))
    (py_range 0 (2 * v_max + 1)).

(** spherical_space.py:331-337 [lbsSO5r3_rngL]. *)
Definition lbsSO5r3_rngL (v L_min L_max : Z) : res (list label) :=
  check require_nonnegint v ;;
  check require_nonnegint_range L_min L_max ;;
  concatM (fun LL =>
    let* d := dimSO5r3 v LL in
    Ok (map (fun a => (v, a, LL)) (py_range 1 (d + 1))))
    (py_range L_min (L_max + 1)).

(** spherical_space.py:350-356 [lbsSO5r3_rngV]. *)
Definition lbsSO5r3_rngV (v_min v_max L : Z) : res (list label) :=
  check require_nonnegint_range v_min v_max ;;
  check require_nonnegint L ;;
  concatM (fun u =>
    let* d := dimSO5r3 u L in
    Ok (map (fun a => (u, a, L)) (py_range 1 (d + 1))))
    (py_range v_min (v_max + 1)).

(** spherical_space.py:371-379 [lbsSO5r3_rngVrngL]. *)
Definition lbsSO5r3_rngVrngL (v_min v_max L_min L_max : Z) : res (list label) :=
  check require_nonnegint_range v_min v_max ;;
  check require_nonnegint_range L_min L_max ;;
  concatM (fun LL =>
    concatM (fun u =>
      let* d := dimSO5r3 u LL in
      Ok (map (fun a => (u, a, LL)) (py_range 1 (d + 1))))
      (py_range v_min (v_max + 1)))
    (py_range L_min (L_max + 1)).

(** spherical_space.py:398-413 [lbsSO5r3_rngVvarL].  In the branch for an
    omitted [L_max] (lines 411-413) the alpha range is [range(1, dimSO5r3(..))],
    without the [+ 1] of the other branch; modelled as written. *)
Definition lbsSO5r3_rngVvarL (v_min v_max L_min : Z) (L_max : option Z)
  : res (list label) :=
  check require_nonnegint_range v_min v_max ;;
  check require_nonnegint L_min ;;
  match L_max with
  | Some L_max =>
      check require_nonnegint_range L_min L_max ;;
      concatM (fun LL =>
        concatM (fun u =>
          let* d := dimSO5r3 u LL in
          Ok (map (fun a => (u, a, LL)) (py_range 1 (d + 1))))
          (py_range v_min (v_max + 1)))
        (py_range L_min (L_max + 1))
  | None =>
      concatM (fun u =>
        let* d := dimSO5r3 u L_min in
        Ok (map (fun a => (u, a, L_min)) (py_range 1 d)))
        (py_range v_min (v_max + 1))
  end.
