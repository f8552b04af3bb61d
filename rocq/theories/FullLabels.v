(** Model of src/acmpy/radial_bases.py and of the label functions of
    src/acmpy/full_operators.py. *)

From Coq Require Import Reals.
From Verif Require Import PyBase Compat Spherical.
Open Scope Z_scope.

(** radial_bases.py:38-39 [dimRadial]. *)
Definition dimRadial (nu_min nu_max : Z) : Z :=
  if nu_min <=? nu_max then nu_max - nu_min + 1 else 0.

(** radial_bases.py:49-50 [lbsRadial]. *)
Definition lbsRadial (nu_min nu_max : Z) : list Z := py_range nu_min (nu_max + 1).

(** radial_bases.py:53-69 [TruncatedRadialSpace]: constructor, [dim], [labels]. *)
Record TruncatedRadialSpace := { trs_nu_min : Z; trs_nu_max : Z }.
Definition TruncatedRadialSpace_init (nu_min nu_max : Z) : res TruncatedRadialSpace :=
  check require_nonnegint_range nu_min nu_max ;;
  Ok {| trs_nu_min := nu_min; trs_nu_max := nu_max |}.
Definition trs_dim (s : TruncatedRadialSpace) : Z := dimRadial (trs_nu_min s) (trs_nu_max s).
Definition trs_labels (s : TruncatedRadialSpace) : list Z :=
  lbsRadial (trs_nu_min s) (trs_nu_max s).

(** radial_bases.py:15-22 [RadialBasis]: the constructor keeps lambda or raises. *)
Definition RadialBasis_init (lambdaa : R) : res R :=
  if Rle_dec lambdaa 0 then Raise ValueError else Ok lambdaa.

(** full_operators.py:46-55 [dimXspace]. *)
Definition dimXspace (nu_min nu_max v_min v_max L_min : Z) (L_max : option Z) : res Z :=
  check require_nonnegint_range nu_min nu_max ;;
  let L_max := match L_max with None => L_min | Some l => l end in
  check require_nonnegint_range L_min L_max ;;
  let* d := dimSO5r3_rngVvarL v_min v_max L_min (Some L_max) in
  Ok (dimRadial nu_min nu_max * d).

(** full_operators.py:77 [XspaceLabel] = (nu, v, alpha, L), as (nu, (v, alpha, L)). *)
Definition xlabel : Type := (Z * label)%type.

(** full_operators.py:80-93 [lbsXspace]. *)
Definition lbsXspace (nu_min nu_max v_min v_max L_min : Z) (L_max : option Z)
  : res (list xlabel) :=
  check require_nonnegint_range nu_min nu_max ;;
  check require_nonnegint_range v_min v_max ;;
  let L_max := match L_max with None => L_min | Some l => l end in
  check require_nonnegint_range L_min L_max ;;
  let rad_labels := lbsRadial nu_min nu_max in
  let* sph_labels := lbsSO5r3_rngVvarL v_min v_max L_min (Some L_max) in
  Ok (flat_map (fun s => map (fun nu => (nu, s)) rad_labels) sph_labels).
