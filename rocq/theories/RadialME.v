(** Model of the radial matrix element functions: src/acmpy/radial_operators.py
    and the first part of src/acmpy/radial_space.py.  A float is a real number
    (no rounding).  [math.sqrt] of a negative number raises ValueError; the
    symbolic [sqrt] used in [ME_Radial_bm_pl], [ME_Radial_Db_pl] and
    [ME_Radial_bm_ml] does not raise (its value on negative numbers, which would
    be imaginary, is not modelled). *)

From Coq Require Import Reals.
From Verif Require Import PyBase Compat Matrix FullLabels RadialOps.
Open Scope Z_scope.

(** [math.sqrt]. *)
Definition math_sqrt (x : R) : res R :=
  if Rlt_dec x 0 then Raise ValueError else Ok (sqrt x).

(** [(-1) ** k]. *)
Definition m1pow (k : Z) : R := powerRZ (-1) k.

(** [float.is_integer]. *)
Definition is_integer (x : R) : bool :=
  if Req_EM_T (IZR (Int_part x)) x then true else false.

Definition Rleb (x y : R) : bool := if Rle_dec x y then true else false.

(** sympy [binomial(n, k)] for 0 <= n, 0 <= k (the only use, see the proof of
    [id_binomials_nonneg]). *)
Fixpoint binom (n k : nat) : Z :=
  match n, k with
  | _, O => 1
  | O, S _ => 0
  | S n', S k' => binom n' k' + binom n' k
  end.
Definition binomial (n k : Z) : R := IZR (binom (Z.to_nat n) (Z.to_nat k)).

(** sympy [RisingFactorial(x, n)] for 0 <= n. *)
Fixpoint rising (x : R) (n : nat) : R :=
  match n with
  | O => 1%R
  | S k => (rising x k * (x + INR k))%R
  end.
Definition RisingFactorial (x : R) (n : Z) : R := rising x (Z.to_nat n).

(** radial_space.py:127-128 [ME_Radial_S0]. *)
Definition ME_Radial_S0 (lambdaa : R) (mu_f mu_i : Z) : res R :=
  if mu_f =? mu_i then Ok (lambdaa / 2 + IZR mu_i)%R else Ok 0%R.

(** radial_space.py:138-139 [ME_Radial_Sp]. *)
Definition ME_Radial_Sp (lambdaa : R) (mu_f mu_i : Z) : res R :=
  if mu_f =? mu_i + 1 then math_sqrt ((lambdaa + IZR mu_i) * (IZR mu_i + 1)) else Ok 0%R.

(** radial_space.py:149-150 [ME_Radial_Sm]. *)
Definition ME_Radial_Sm (lambdaa : R) (mu_f mu_i : Z) : res R :=
  if mu_f =? mu_i - 1 then math_sqrt ((lambdaa + IZR mu_i - 1) * IZR mu_i) else Ok 0%R.

(** radial_operators.py:45-53 [ME_Radial_b2]. *)
Definition ME_Radial_b2 (lambdaa : R) (mu_f mu_i : Z) : res R :=
  if mu_f =? mu_i - 1 then math_sqrt ((lambdaa + IZR mu_i - 1) * IZR mu_i)
  else if mu_f =? mu_i then Ok (lambdaa + 2 * IZR mu_i)%R
  else if mu_f =? mu_i + 1 then math_sqrt ((lambdaa + IZR mu_i) * (IZR mu_i + 1))
  else Ok 0%R.

(** radial_space.py:250-258 [ME_Radial_bDb]. *)
Definition ME_Radial_bDb (lambdaa : R) (mu_f mu_i : Z) : res R :=
  if mu_f =? mu_i - 1 then math_sqrt ((lambdaa + IZR mu_i - 1) * IZR mu_i)
  else if mu_f =? mu_i then Ok (- (1 / 2))%R
  else if mu_f =? mu_i + 1 then
    let* s := math_sqrt ((lambdaa + IZR mu_i) * (IZR mu_i + 1)) in Ok (- s)%R
  else Ok 0%R.

(** radial_space.py:273-279 [ME_Radial_b_pl]. *)
Definition ME_Radial_b_pl (lambdaa : R) (mu_f mu_i : Z) : res R :=
  if mu_f =? mu_i - 1 then math_sqrt (IZR mu_i)
  else if mu_f =? mu_i then math_sqrt (lambdaa + IZR mu_i)
  else Ok 0%R.

(** radial_space.py:359-365 [ME_Radial_b_ml]. *)
Definition ME_Radial_b_ml (lambdaa : R) (mu_f mu_i : Z) : res R :=
  if mu_f =? mu_i + 1 then math_sqrt (IZR mu_f)
  else if mu_f =? mu_i then math_sqrt (lambdaa + IZR mu_i - 1)
  else Ok 0%R.

(** radial_space.py:539-558 [MF_Radial_id_pl], evaluated at the number
    [lambdaa] ([simplify] does not change the value). *)
Definition MF_Radial_id_pl (lambdaa : R) (mu nu r : Z) : R :=
  if r =? 0 then (if mu =? nu then 1%R else 0%R)
  else if mu + r <? nu then 0%R
  else
    (fold_right Rplus 0
       (map (fun j => m1pow j * binomial r j * binomial (r + mu - nu + j - 1) (r - 1)
                      * RisingFactorial (lambdaa + IZR mu + IZR r + IZR j) (r - j)
                      * RisingFactorial (IZR mu + 1) j)
            (py_range (Z.max 0 (nu - mu)) (r + 1)))
     * m1pow (mu + nu))%R.

(** radial_space.py:516-518 [MF_Radial_id_poly]; the polynomial is represented
    by its value at the point where it is then evaluated. *)
Definition MF_Radial_id_poly (mu nu r : Z) (lamvar : R) : res R :=
  check py_assert (nu <=? mu + r) ;;
  Ok (MF_Radial_id_pl lamvar mu nu r).

Section Gamma.
  (** scipy's Gamma function, as used through [scipy.special.poch]. *)
  Variable Gam : R -> R.

  (** scipy.special.poch. *)
  Definition poch (z m : R) : R := (Gam (z + m) / Gam z)%R.

  (** radial_space.py:187-196 [ME_Radial_pt]. *)
  Definition ME_Radial_pt (lambdaa : R) (mu_f mu_i : Z) : res R :=
    if Req_EM_T lambdaa 1 then Raise ValueError
    else
      let poch_i := poch (IZR mu_i + 1) (lambdaa - 1) in
      let poch_f := poch (IZR mu_f + 1) (lambdaa - 1) in
      let* s := math_sqrt (poch_i / poch_f) in
      Ok (m1pow (mu_f - mu_i) * s / (lambdaa - 1))%R.

  (** radial_space.py:171-179 [ME_Radial_bm2]. *)
  Definition ME_Radial_bm2 (lambdaa : R) (mu_f mu_i : Z) : res R :=
    if Req_EM_T lambdaa (-1) then Raise ValueError
    else if is_integer lambdaa &&
            (Rleb lambdaa (- IZR mu_i) || Rleb lambdaa (- IZR mu_f)) then Raise ValueError
    else ME_Radial_pt lambdaa (Z.max mu_f mu_i) (Z.min mu_f mu_i).

  (** radial_space.py:220-233 [ME_Radial_D2b]. *)
  Definition ME_Radial_D2b (lambdaa : R) (mu_f mu_i : Z) : res R :=
    let* stuff :=
      if mu_f =? mu_i - 1 then math_sqrt ((lambdaa + IZR mu_i - 1) * IZR mu_i)
      else if mu_f =? mu_i then Ok (- lambdaa - 2 * IZR mu_i)%R
      else if mu_f =? mu_i + 1 then math_sqrt ((lambdaa + IZR mu_i) * (IZR mu_i + 1))
      else Ok 0%R in
    let* pt := ME_Radial_pt lambdaa (Z.max mu_f mu_i) (Z.min mu_f mu_i) in
    Ok (stuff + (lambdaa - 3 / 2) * (lambdaa - 1 / 2) * pt)%R.

  (** radial_space.py:297-306 [ME_Radial_bm_pl]. *)
  Definition ME_Radial_bm_pl (lambdaa : R) (mu_f mu_i : Z) : res R :=
    if is_integer lambdaa && Rleb lambdaa (- IZR mu_i) then Raise ValueError
    else if mu_f <? mu_i then Ok 0%R
    else
      let poch_i := poch (IZR mu_i + 1) (lambdaa - 1) in
      let poch_f := poch (IZR mu_f + 1) lambdaa in
      Ok (m1pow (mu_f - mu_i) * sqrt (poch_i / poch_f))%R.

  (** radial_space.py:329-344 [ME_Radial_Db_pl]. *)
  Definition ME_Radial_Db_pl (lambdaa : R) (mu_f mu_i : Z) : res R :=
    let* r :=
      if mu_f =? mu_i - 1 then math_sqrt (IZR mu_i)
      else if mu_f =? mu_i then
        let* s := math_sqrt (lambdaa + IZR mu_i) in Ok (- s)%R
      else Ok 0%R in
    if mu_i <=? mu_f then
      let poch_i := poch (IZR mu_i + 1) (lambdaa - 1) in
      let poch_f := poch (IZR mu_f + 1) lambdaa in
      Ok (r + m1pow (mu_f - mu_i) * (lambdaa - 1 / 2) * sqrt (poch_i / poch_f))%R
    else Ok r.

  (** radial_space.py:383-392 [ME_Radial_bm_ml]. *)
  Definition ME_Radial_bm_ml (lambdaa : R) (mu_f mu_i : Z) : res R :=
    if is_integer lambdaa && Rleb lambdaa (- IZR mu_i) then Raise ValueError
    else if mu_i <? mu_f then Ok 0%R
    else
      let poch_f := poch (IZR mu_f + 1) (lambdaa - 2) in
      let poch_i := poch (IZR mu_i + 1) (lambdaa - 1) in
      Ok (m1pow (mu_f - mu_i) * sqrt (poch_f / poch_i))%R.

  (** radial_space.py:414-429 [ME_Radial_Db_ml]. *)
  Definition ME_Radial_Db_ml (lambdaa : R) (mu_f mu_i : Z) : res R :=
    let* r :=
      if mu_f =? mu_i + 1 then
        let* s := math_sqrt (IZR mu_f) in Ok (- s)%R
      else if mu_f =? mu_i then math_sqrt (lambdaa + IZR mu_i - 1)
      else Ok 0%R in
    if mu_f <=? mu_i then
      let poch_f := poch (IZR mu_f + 1) (lambdaa - 2) in
      let poch_i := poch (IZR mu_i + 1) (lambdaa - 1) in
      let* s := math_sqrt (poch_f / poch_i) in
      Ok (r + m1pow (mu_f - mu_i) * (3 / 2 - lambdaa) * s)%R
    else Ok r.

  (** radial_space.py:450-461 [ME_Radial_id_pl]. *)
  Definition ME_Radial_id_pl (lambdaa : R) (mu_f mu_i r : Z) : res R :=
    if is_integer lambdaa && Rleb lambdaa (- IZR mu_i) then Raise ValueError
    else if mu_i <=? mu_f + r then
      let* p := MF_Radial_id_poly mu_f mu_i r lambdaa in
      let poch_i := poch (IZR mu_i + 1) (lambdaa - 1) in
      let poch_f := poch (IZR mu_f + 1) (lambdaa + 2 * IZR r - 1) in
      let* s := math_sqrt (poch_i / poch_f) in
      Ok (p * s)%R
    else Ok 0%R.

  (** radial_space.py:482-493 [ME_Radial_id_ml]. *)
  Definition ME_Radial_id_ml (lambdaa : R) (mu_f mu_i r : Z) : res R :=
    if is_integer lambdaa && Rleb lambdaa (- IZR mu_f + 2 * IZR r) then Raise ValueError
    else if mu_f <=? mu_i + r then
      let* p := MF_Radial_id_poly mu_i mu_f r (lambdaa - 2 * IZR r)%R in
      let poch_f := poch (IZR mu_f + 1) (lambdaa - 1 - 2 * IZR r) in
      let poch_i := poch (IZR mu_i + 1) (lambdaa - 1) in
      let* s := math_sqrt (poch_f / poch_i) in
      Ok (p * s)%R
    else Ok 0%R.

  (** [np.array([[f(nu_min + i, nu_min + j) for j ...] for i ...])]: every entry
      is evaluated and the first exception, row by row, is raised. *)
  Definition build_matrix (f : Z -> Z -> res R) (nu_min nu_max : Z) : res (mat R) :=
    let n := nu_max - nu_min + 1 in
    let* rows := mapM (fun i => mapM (fun j => f (nu_min + i) (nu_min + j)) (py_range 0 n))
                      (py_range 0 n) in
    Ok (mkMat n n (fun i j => nth (Z.to_nat j) (nth (Z.to_nat i) rows []) 0%R)).

  (** radial_space.py:714-724 [RepRadial] and 741-750 [RepRadial_param]. *)
  Definition RepRadial (ME : R -> Z -> Z -> res R) (lambdaa : R) (nu_min nu_max : Z)
    : res (mat R) := build_matrix (ME lambdaa) nu_min nu_max.
  Definition RepRadial_param (ME : R -> Z -> Z -> Z -> res R) (lambdaa : R)
      (nu_min nu_max param : Z) : res (mat R) :=
    build_matrix (fun f i => ME lambdaa f i param) nu_min nu_max.

  (** The matrix functions used in factor lists: [RepRadial] of the matrix
      element functions, [np.eye], and (as parameters) the matrix square root
      and its inverse applied to the matrix of beta^2:
      radial_space.py:753-763 [RepRadial_b2_sqrt], 766-772
      [RepRadial_b2_sqrtInv]. *)
  Variable Matrix_sqrt Matrix_sqrtInv : mat R -> res (mat R).

  Definition Rep_elem (e : elem) (lambdaa : R) (nu_min nu_max : Z) : res (mat R) :=
    match e with
    | M_Sm => RepRadial ME_Radial_Sm lambdaa nu_min nu_max
    | M_S0 => RepRadial ME_Radial_S0 lambdaa nu_min nu_max
    | M_Sp => RepRadial ME_Radial_Sp lambdaa nu_min nu_max
    | M_b2 => RepRadial ME_Radial_b2 lambdaa nu_min nu_max
    | M_bm2 => RepRadial ME_Radial_bm2 lambdaa nu_min nu_max
    | M_D2b => RepRadial ME_Radial_D2b lambdaa nu_min nu_max
    | M_bDb => RepRadial ME_Radial_bDb lambdaa nu_min nu_max
    | M_b_pl => RepRadial ME_Radial_b_pl lambdaa nu_min nu_max
    | M_bm_pl => RepRadial ME_Radial_bm_pl lambdaa nu_min nu_max
    | M_Db_pl => RepRadial ME_Radial_Db_pl lambdaa nu_min nu_max
    | M_b_ml => RepRadial ME_Radial_b_ml lambdaa nu_min nu_max
    | M_bm_ml => RepRadial ME_Radial_bm_ml lambdaa nu_min nu_max
    | M_Db_ml => RepRadial ME_Radial_Db_ml lambdaa nu_min nu_max
    | M_id_pl r => RepRadial_param ME_Radial_id_pl lambdaa nu_min nu_max r
    | M_id_ml r => RepRadial_param ME_Radial_id_ml lambdaa nu_min nu_max r
    | M_b2_sqrt =>
        check RadialBasis_init lambdaa ;;
        let* m := RepRadial ME_Radial_b2 lambdaa nu_min nu_max in
        Matrix_sqrt m
    | M_b2_sqrtInv =>
        let* m := RepRadial ME_Radial_b2 lambdaa nu_min nu_max in
        Matrix_sqrtInv m
    | M_eye => Ok (eye (nu_max - nu_min + 1))
    end.
End Gamma.
