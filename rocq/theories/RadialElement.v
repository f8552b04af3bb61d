(** Single radial matrix elements, and radial products that forget what they
    remembered. *)

From Coq Require Import Reals.
From Verif Require Import PyBase Compat Matrix FullLabels RadialOps RadialME.
Open Scope Z_scope.

Section Element.
  Variable Gam : R -> R.
  Variables Matrix_sqrt Matrix_sqrtInv : mat R -> res (mat R).

  (** radial_space.py:1616-1630 [RepRadial_Prod]: as [RepRadial_Prod_common];
      clearing the caches afterwards has no effect on the result. *)
  Definition RepRadial_Prod (rbs_op : list rsym) (anorm lambdaa : R)
      (lambda_var nu_min nu_max nu_lap : Z) : res (mat R) :=
    RepRadial_Prod_common (Rep_elem Gam Matrix_sqrt Matrix_sqrtInv) anorm rbs_op lambdaa
      lambda_var nu_min nu_max nu_lap.

  (** radial_space.py:670-674, the last case of [ME_Radial]: one entry of a
      matrix.  [None] is the symbol [Radial_id] (radial_space.py:100). *)
  Definition ME_Radial_matrix (radial_op : option rsym) (anorm lambdaa : R)
      (lambda_var mu_f mu_i : Z) : res R :=
    let op_prod := match radial_op with None => [] | Some op => [op] end in
    let* lap := iquo (Z.abs lambda_var + 3) 2 in
    let* MM := RepRadial_Prod op_prod anorm lambdaa lambda_var 0 (Z.max mu_f mu_i) lap in
    Ok (ent MM mu_f mu_i).

  (** radial_space.py:626-677 [ME_Radial].  Simplification: division by a zero
      [anorm] yields a number here. *)
  Definition ME_Radial (radial_op : option rsym) (anorm lambdaa : R)
      (lambda_var mu_f mu_i : Z) : res R :=
    let* lambdaa := RadialBasis_init lambdaa in
    let default := ME_Radial_matrix radial_op anorm lambdaa lambda_var mu_f mu_i in
    match radial_op with
    | Some Radial_b2 =>
        if lambda_var =? 0 then
          let* x := ME_Radial_b2 lambdaa mu_f mu_i in Ok (x / anorm ^ 2)%R
        else default
    | Some Radial_bm2 =>
        if lambda_var =? 0 then
          let* x := ME_Radial_bm2 Gam lambdaa mu_f mu_i in Ok (x * anorm ^ 2)%R
        else default
    | Some Radial_D2b =>
        if lambda_var =? 0 then
          let* x := ME_Radial_D2b Gam lambdaa mu_f mu_i in Ok (x * anorm ^ 2)%R
        else default
    | Some Radial_bDb =>
        if lambda_var =? 0 then ME_Radial_bDb lambdaa mu_f mu_i else default
    | Some Radial_b =>
        if lambda_var =? 1 then
          let* x := ME_Radial_b_pl lambdaa mu_f mu_i in Ok (x / anorm)%R
        else if lambda_var =? -1 then
          let* x := ME_Radial_b_ml lambdaa mu_f mu_i in Ok (x / anorm)%R
        else default
    | Some Radial_bm =>
        if lambda_var =? 1 then
          let* x := ME_Radial_bm_pl Gam lambdaa mu_f mu_i in Ok (x * anorm)%R
        else if lambda_var =? -1 then
          let* x := ME_Radial_bm_ml Gam lambdaa mu_f mu_i in Ok (x * anorm)%R
        else default
    | Some Radial_Db =>
        if lambda_var =? 1 then
          let* x := ME_Radial_Db_pl Gam lambdaa mu_f mu_i in Ok (x * anorm)%R
        else if lambda_var =? -1 then
          let* x := ME_Radial_Db_ml Gam lambdaa mu_f mu_i in Ok (x * anorm)%R
        else default
    | Some Radial_S0 =>
        if lambda_var =? 0 then ME_Radial_S0 lambdaa mu_f mu_i else default
    | Some Radial_Sp =>
        if lambda_var =? 0 then ME_Radial_Sp lambdaa mu_f mu_i else default
    | Some Radial_Sm =>
        if lambda_var =? 0 then ME_Radial_Sm lambdaa mu_f mu_i else default
    | None =>
        if is_even lambda_var then
          if 0 <=? lambda_var then ME_Radial_id_pl Gam lambdaa mu_f mu_i (lambda_var / 2)
          else ME_Radial_id_ml Gam lambdaa mu_f mu_i (- lambda_var / 2)
        else default
    | Some (Radial_other _) => default
    end.
End Element.
