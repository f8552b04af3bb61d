(** Model of the symbolic part of src/acmpy/radial_space.py: parsing of radial
    operator words, distribution of the lambda shift over the factors, and the
    choice of elementary matrices for each factor.

    The numeric entries of the elementary matrices are not part of this file
    (see RadialME.v).  A running [lambda] is tracked as an integer offset from
    the [lambdaa] argument: the code only ever adds integers to it. *)

From Coq Require Import Reals.
From Verif Require Import PyBase Compat Matrix.
Open Scope Z_scope.

(** radial_space.py:32-41: the ten basic radial operator symbols, plus any
    other SymPy symbol. *)
Inductive rsym : Set :=
| Radial_Sm | Radial_S0 | Radial_Sp
| Radial_b2 | Radial_bm2 | Radial_D2b | Radial_bDb
| Radial_b | Radial_bm | Radial_Db
| Radial_other (name : Z).

(** radial_space.py:1343-1403: [KTOp(K, T)] and [SOp(S)]. *)
Inductive ktsop : Set :=
| KTOp (K T : Z)
| SOp (S : Z).

(** radial_space.py:1358-1363: the [KTOp] constructor rejects negative [T]. *)
Definition mk_KTOp (K T : Z) : res ktsop :=
  check require_nonnegint T ;;
  Ok (KTOp K T).

(** radial_space.py:1381-1385: the [SOp] constructor. *)
Definition mk_SOp (S : Z) : res ktsop :=
  check raise_if (negb ((S =? -1) || (S =? 0) || (S =? 1))) ValueError ;;
  Ok (SOp S).

(** ** Parsing *)

(** State of the loop in [Parse_RadialOp_List]: ([POp_List], [K], [T]). *)
Definition parse_state : Set := list ktsop * Z * Z.

(** radial_space.py:1800-1806 (S operators), with [s = idx - 2]. *)
Definition parse_S (s : Z) (st : parse_state) : res parse_state :=
  let '(POp, K, T) := st in
  let* sop := mk_SOp s in
  if negb (K =? 0) || (0 <? T) then
    let* kt := mk_KTOp K T in
    Ok (sop :: kt :: POp, 0, 0)
  else Ok (sop :: POp, K, T).

(** radial_space.py:1807-1813 (d/dbeta operators). *)
Definition parse_D (idx : Z) (st : parse_state) : res parse_state :=
  let '(POp, K, T) := st in
  if negb (K =? 0) then
    let* kt := mk_KTOp K T in
    Ok (kt :: POp, 0, 0 + idx)
  else Ok (POp, K, T + idx).

(** radial_space.py:1814-1819 (beta d/dbeta). *)
Definition parse_bD (st : parse_state) : res parse_state :=
  let '(POp, K, T) := st in
  if negb (K =? 0) then
    let* kt := mk_KTOp K T in
    Ok (kt :: POp, 1, 0 + 1)
  else Ok (POp, 1, T + 1).

(** radial_space.py:1820-1825 (powers of beta). *)
Definition parse_b (idx : Z) (st : parse_state) : res parse_state :=
  let '(POp, K, T) := st in Ok (POp, K + idx, T).

(** radial_space.py:1799-1827: one iteration of the loop. *)
Definition parse_step (op : rsym) (st : parse_state) : res parse_state :=
  match op with
  | Radial_Sm => parse_S (1 - 2) st
  | Radial_S0 => parse_S (2 - 2) st
  | Radial_Sp => parse_S (3 - 2) st
  | Radial_Db => parse_D 1 st
  | Radial_D2b => parse_D 2 st
  | Radial_bDb => parse_bD st
  | Radial_b => parse_b 1 st
  | Radial_b2 => parse_b 2 st
  | Radial_bm => parse_b (-1) st
  | Radial_bm2 => parse_b (-2) st
  | Radial_other _ => Raise ValueError
  end.

(** radial_space.py:1799: the loop over a list already in iteration order. *)
Fixpoint parse_loop (ops : list rsym) (st : parse_state) : res parse_state :=
  match ops with
  | [] => Ok st
  | op :: ops' =>
      let* st' := parse_step op st in
      parse_loop ops' st'
  end.

(** radial_space.py:1787-1832 [Parse_RadialOp_List]; [rs_op[::-1]] is [rev]. *)
Definition Parse_RadialOp_List (rs_op : list rsym) : res (list ktsop) :=
  let* (POp, K, T) := parse_loop (rev rs_op) ([], 0, 0) in
  if negb (K =? 0) || (0 <? T) then
    let* kt := mk_KTOp K T in
    Ok (kt :: POp)
  else Ok POp.

(** ** Distribution of lambda_var over the factors *)

(** [l[i] = f(l[i])] at a valid index. *)
Fixpoint upd (l : list Z) (i : nat) (f : Z -> Z) : list Z :=
  match l, i with
  | [], _ => []
  | x :: l', O => f x :: l'
  | x :: l', S i' => x :: upd l' i' f
  end.

(** [1 + l.index(1)] when 1 is in the list, else 0. *)
Fixpoint index1 (l : list Z) (i : Z) : Z :=
  match l with
  | [] => 0
  | x :: l' => if x =? 1 then i else index1 l' (i + 1)
  end.

(** radial_space.py:1962-1968: [max_vars]. *)
Definition max_var (op : ktsop) : Z :=
  match op with
  | KTOp K T => Z.abs K + T
  | SOp _ => 0
  end.

(** radial_space.py:1970: [irem(max_var, 2)] for each. *)
Definition odd_var (op : ktsop) : Z := max_var op mod 2.

(** radial_space.py:1980-1985: the loop turning ones into minus ones. *)
Fixpoint flip_loop (rem odd_count : Z) (l : list Z) : list Z :=
  match l with
  | [] => []
  | x :: l' =>
      if odd_count <=? rem then x :: l'
      else if x =? 1 then -1 :: flip_loop rem (odd_count - 2) l'
      else x :: flip_loop rem odd_count l'
  end.

(** The value of the variable [odd_count] after that loop, which the disabled
    assertion on line 1990-1991 compares with the sum of the shifts. *)
Fixpoint flip_count (rem odd_count : Z) (l : list Z) : Z :=
  match l with
  | [] => odd_count
  | x :: l' =>
      if odd_count <=? rem then odd_count
      else if x =? 1 then flip_count rem (odd_count - 2) l'
      else flip_count rem odd_count l'
  end.

(** radial_space.py:1995-2000: the loop raising the shifts; returns the
    updated list, the remaining shift and the final value of [i0]. *)
Fixpoint fill_loop (rem i0 : Z) (mo : list (Z * Z)) : res (list Z * Z * Z) :=
  match mo with
  | [] => Ok ([], rem, i0 - 1)
  | (m, o) :: mo' =>
      if rem <=? 0 then Ok (map snd ((m, o) :: mo'), rem, i0)
      else
        let* q := iquo (Z.min (rem + 1) (m - o)) 2 in
        let var := 2 * q in
        let* (l, rem', i') := fill_loop (rem - var) (i0 + 1) mo' in
        Ok (o + var :: l, rem', i')
  end.

Definition is_KTOp (op : ktsop) : bool :=
  match op with KTOp _ _ => true | SOp _ => false end.

(** [isinstance(l[0], KTOp)] and [isinstance(l[-1], KTOp)], guarded by n > 0. *)
Definition first_KT (ops : list ktsop) : bool :=
  match ops with [] => false | op :: _ => is_KTOp op end.
Definition last_KT (ops : list ktsop) : bool := first_KT (rev ops).

(** radial_space.py:1956-2024: the unsigned shifts. *)
Definition lambda_abs_list (rsp_op : list ktsop) (lambda_var : Z) : res (list Z) :=
  let lambda_rem := Z.abs lambda_var in
  let max_vars := map max_var rsp_op in
  let max_count := zsum max_vars in
  let* odd_vars := mapM (fun m => irem m 2) max_vars in
  let odd_count := zsum odd_vars in
  let oddin :=
    if is_odd (lambda_rem - max_count) then index1 odd_vars 1 else 0 in
  if lambda_rem <? odd_count then
    let l := flip_loop lambda_rem odd_count odd_vars in
    Ok (if 0 <? oddin then upd l (Z.to_nat (oddin - 1)) (fun _ => 0) else l)
  else if lambda_rem <? max_count then
    let* (l, rem, i0) :=
      fill_loop (lambda_rem - odd_count) 0 (combine max_vars odd_vars) in
    Ok (if rem <? 0 then
          if 0 <? oddin then upd l (Z.to_nat (oddin - 1)) (fun x => x - 1)
          else upd l (Z.to_nat i0) (fun x => x - 1)
        else l)
  else
    let rem := lambda_rem - max_count in
    let l := if 0 <? oddin then upd max_vars (Z.to_nat (oddin - 1)) (fun x => x - 1)
             else max_vars in
    let rem := if 0 <? oddin then rem + 1 else rem in
    Ok (if 0 <? rem then
          if (0 <? lambda_var) && first_KT rsp_op then
            upd l 0 (fun x => x + rem)
          else if (lambda_var <? 0) && last_KT rsp_op then
            upd l (length l - 1) (fun x => x + rem)
          else rem :: l
        else l).

(** radial_space.py:1956-2029 [Lambda_RadialOp_List]. *)
Definition Lambda_RadialOp_List (rsp_op : list ktsop) (lambda_var : Z)
  : res (list Z) :=
  let* l := lambda_abs_list rsp_op lambda_var in
  Ok (if 0 <=? lambda_var then l else map Z.opp l).

(** ** Splitting the shift of beta^K d^T *)

Definition py_repeat (x n : Z) : list Z := repeat x (Z.to_nat n).

(** radial_space.py:1300-1328 [Lambda_Splits]; the two assignments on line
    1322-1323 are at valid indices. *)
Definition Lambda_Splits (K T R : Z) : res (list Z) :=
  check require_nonnegint T ;;
  let KT := Z.abs K + T in
  let IR := Z.abs R - KT in
  let* shifts :=
    if 0 <? IR then
      if is_even IR then Ok (IR :: py_repeat 1 KT)
      else if 0 <? KT then Ok (IR + 1 :: 0 :: py_repeat 1 (KT - 1))
      else Ok [IR]
    else
      let* Zq := iquo (- IR) 2 in
      let* T2 := iquo T 2 in
      let ZT := Z.min Zq T2 in
      let s := py_repeat 0 (KT - Z.abs R - 2 * ZT) ++ py_repeat 1 (Z.abs R)
               ++ py_repeat 0 (2 * ZT) in
      if (K <? 0) && (R =? 0) && is_odd T then
        Ok (upd (upd s (Z.to_nat (- K - 1)) (fun _ => 1))
                (Z.to_nat (- K)) (fun _ => -1))
      else Ok s in
  Ok (if 0 <=? R then shifts else map Z.opp shifts).

(** ** Factorisation of beta^K d^T into elementary matrices *)

(** The elementary matrices used by [RepRadial_bS_DS], named after the matrix
    element functions of radial_space.py and radial_operators.py. *)
Inductive elem : Set :=
| M_Sm | M_S0 | M_Sp
| M_b2 | M_bm2 | M_D2b | M_bDb
| M_b_pl | M_bm_pl | M_Db_pl
| M_b_ml | M_bm_ml | M_Db_ml
| M_id_pl (r : Z) | M_id_ml (r : Z)
| M_b2_sqrt | M_b2_sqrtInv
| M_eye.

(** One [Mat] of the code: a product of elementary matrices (leftmost first),
    each computed at [lambdaa + offset], times [anorm ** power]. *)
Record factor : Set := mkF { f_elems : list (elem * Z); f_pow : Z }.

Definition F1 (e : elem) (off pow : Z) : factor := mkF [(e, off)] pow.

(** radial_space.py:1117-1213: the choice of [Mat] and [imm] at position [i]
    with running offset [run]; [s] is [lam_splits]. *)
Definition bsds_pick (K i run : Z) (s : list Z) : res (factor * Z) :=
  let s1 := nth (Z.to_nat (i - 1)) s 0 in
  if 0 <? s1 then
    if i <=? K then check py_assert (0 <? K) ;; Ok (F1 M_b_pl run (-1), 1)
    else if i <=? - K then check py_assert (K <? 0) ;; Ok (F1 M_bm_pl run 1, 1)
    else check py_assert (Z.abs K <? i) ;; Ok (F1 M_Db_pl run 1, 1)
  else if s1 <? 0 then
    if i <=? K then check py_assert (0 <? K) ;; Ok (F1 M_b_ml run (-1), 1)
    else if i <=? - K then check py_assert (K <? 0) ;; Ok (F1 M_bm_ml run 1, 1)
    else check py_assert (Z.abs K <? i) ;; Ok (F1 M_Db_ml run 1, 1)
  else if (1 <? i) && (nth (Z.to_nat (i - 2)) s 0 =? 0) then
    if i <=? K then check py_assert (0 <? K) ;; Ok (F1 M_b2 run (-2), 2)
    else if i <=? - K then check py_assert (K <? 0) ;; Ok (F1 M_bm2 run 2, 2)
    else if i =? K + 1 then check py_assert (0 <? K) ;; Ok (F1 M_bDb run 0, 2)
    else if i =? - K - 1 then Raise ValueError
    else Ok (F1 M_D2b run 2, 2)
  else
    if i <=? K then check py_assert (0 <? K) ;; Ok (F1 M_b2_sqrt run (-1), 1)
    else if i <=? - K then check py_assert (K <? 0) ;; Ok (F1 M_b2_sqrtInv run 1, 1)
    else check py_assert (Z.abs K <? i) ;;
         Ok (mkF [(M_b2_sqrtInv, run); (M_bDb, run)] 1, 1).

(** [Mat @ Mat_product]; [None] is the unbound local [Mat_product]. *)
Definition lmul (m : factor) (prod : option (list factor))
  : res (option (list factor)) :=
  match prod with
  | None => Raise UnboundLocalError
  | Some p => Ok (Some (m :: p))
  end.

(** radial_space.py:1115-1220: the while loop.  [fuel] bounds the iterations;
    running out is reported as [IndexError] and proved impossible. *)
Fixpoint bsds_loop (fuel : nat) (K n lamX i run : Z) (s : list Z)
    (prod : option (list factor)) : res (option (list factor) * Z) :=
  if 0 <? i then
    match fuel with
    | O => Raise IndexError
    | S fuel' =>
        let* (m, imm) := bsds_pick K i run s in
        let* prod' :=
          if (i =? n) && (0 <=? lamX) then Ok (Some [m]) else lmul m prod in
        bsds_loop fuel' K n lamX (i - imm)
                  (run + nth (Z.to_nat (i - 1)) s 0) s prod'
    end
  else Ok (prod, run).

(** radial_space.py:1084-1232 (after the positivity test): the product as a
    list of factors, leftmost first.  Lines 1086-1106 are the case K=T=0, R odd
    (there the code associates the product to the left instead). *)
Definition bsds_factors (K T R : Z) : res (list factor) :=
  if (K =? 0) && (T =? 0) && is_odd R then
    if R <? 0 then
      let p := [F1 M_b2_sqrt R 0; F1 M_bm_ml (R + 1) 0] in
      Ok (if R <? -1 then p ++ [F1 (M_id_ml ((- (R + 1)) / 2)) 0 0] else p)
    else
      let p := [F1 M_bm_pl 0 0; F1 M_b2_sqrt 0 0] in
      Ok (if 1 <? R then F1 (M_id_pl ((R - 1) / 2)) 1 0 :: p else p)
  else
    let* splits := Lambda_Splits K T R in
    let n := Z.abs K + T in
    let long := n <? zlen splits in
    let lamX := if long then nth 0 splits 0 else 0 in
    let s := if long then tl splits else splits in
    check py_assert (zlen s =? n) ;;
    let* prod0 :=
      if lamX <? 0 then
        check py_assert (is_even lamX) ;;
        Ok (Some [F1 (M_id_ml ((- lamX) / 2)) 0 0])
      else Ok None in
    let run0 := if lamX <? 0 then lamX else 0 in
    let* (prod1, run1) := bsds_loop (Z.to_nat n) K n lamX n run0 s prod0 in
    let* prod2 :=
      if 0 <? lamX then
        check py_assert (is_even lamX) ;;
        let m := F1 (M_id_pl (lamX / 2)) run1 0 in
        if 0 <? n then lmul m prod1 else Ok (Some [m])
      else Ok prod1 in
    let prod3 := if (n =? 0) && (lamX =? 0) then Some [F1 M_eye run1 0] else prod2 in
    match prod3 with
    | None => Raise UnboundLocalError
    | Some p => Ok p
    end.

(** radial_space.py:1077-1083: the positivity test, then the factors.  The
    offsets returned are relative to [lambdaa]. *)
Definition bsds (K T : Z) (lambdaa : R) (R_ : Z) : res (list factor) :=
  if Rle_dec lambdaa 0 then Raise ValueError
  else if Rle_dec (lambdaa + IZR R_) 0 then Raise ValueError
  else bsds_factors K T R_.

(** radial_space.py:1371-1375 and 1393-1401: [representation]. *)
Definition representation (op : ktsop) (lambdaa : R) (R_ : Z) : res (list factor) :=
  match op with
  | KTOp K T => bsds K T lambdaa R_
  | SOp s =>
      check raise_if (negb (R_ =? 0)) ValueError ;;
      Ok [F1 (if s =? -1 then M_Sm else if s =? 0 then M_S0 else M_Sp) 0 0]
  end.

(** Move the offsets of a factor list from [lambda_run] to [lambdaa]. *)
Definition shift_factor (d : Z) (f : factor) : factor :=
  mkF (map (fun eo => (fst eo, snd eo + d)) (f_elems f)) (f_pow f).

(** radial_space.py:1489-1502: the loop of [RepRadialshfs_Prod], applied to the
    operator list and the shifts in processing order (last operator first);
    [run] is the current offset.  [lambda_shfs[i-1]] raises IndexError when the
    shifts run out. *)
Fixpoint shfs_loop (rops : list ktsop) (rshfs : list Z) (lambdaa : R) (run : Z)
    (prod : list factor) : res (list factor) :=
  match rops with
  | [] => Ok prod
  | op :: rops' =>
      match rshfs with
      | [] => Raise IndexError
      | R_ :: rshfs' =>
          let* fs := representation op (lambdaa + IZR run) R_ in
          shfs_loop rops' rshfs' lambdaa (run + R_)
                    (map (shift_factor run) fs ++ prod)
      end
  end.

(** radial_space.py:1477-1504 [RepRadialshfs_Prod] as a factor list; the empty
    product is [np.eye].  Simplification: the two lists are taken to have the
    same length, as [RepRadial_Prod_common] guarantees (C17). *)
Definition RepRadialshfs_Prod (rps_op : list ktsop) (lambdaa : R)
    (lambda_shfs : list Z) : res (list factor) :=
  match rps_op with
  | [] => Ok [F1 M_eye 0 0]
  | _ => shfs_loop (rev rps_op) (rev lambda_shfs) lambdaa 0 []
  end.

(** radial_space.py:1642-1651: the operator and shift lists after the extra
    shift, if any, has been given to an identity operator. *)
Definition insert_id (ops : list ktsop) (shfs : list Z)
  : list ktsop * list Z :=
  if zlen ops <? zlen shfs then
    if 0 <? nth 0 shfs 0 then (KTOp 0 0 :: ops, shfs)
    else (ops ++ [KTOp 0 0], tl shfs ++ [nth 0 shfs 0])
  else (ops, shfs).

(** radial_space.py:1633-1656: the factors multiplied by
    [RepRadial_Prod_common]. *)
Definition RepRadial_Prod_factors (rbs_op : list rsym) (lambdaa : R)
    (lambda_var : Z) : res (list factor) :=
  if Rle_dec lambdaa 0 then Raise ValueError
  else if Rle_dec (lambdaa + IZR lambda_var) 0 then Raise ValueError
  else
    let* parsed_ops := Parse_RadialOp_List rbs_op in
    let* lambda_shfs := Lambda_RadialOp_List parsed_ops lambda_var in
    let '(ops, shfs) := insert_id parsed_ops lambda_shfs in
    RepRadialshfs_Prod ops lambdaa shfs.

(** ** Evaluating factor lists to matrices

    [Rep e lambda nu_min nu_max] stands for [RepRadial] (714-724),
    [RepRadial_param] (741-750), [RepRadial_b2_sqrt] (753-763),
    [RepRadial_b2_sqrtInv] (766-772) and [np.eye]. *)
Section Eval.
  Variable Rep : elem -> R -> Z -> Z -> res (mat R).
  Variable anorm : R.

  Fixpoint mprod (l : list (mat R)) : res (mat R) :=
    match l with
    | [] => Raise UnboundLocalError
    | [m] => Ok m
    | m :: l' =>
        let* p := mprod l' in
        matmul m p
    end.

  Definition factor_mat (lambdaa : R) (nu_min nu_max : Z) (f : factor)
    : res (mat R) :=
    let* ms := mapM (fun eo => Rep (fst eo) (lambdaa + IZR (snd eo)) nu_min nu_max)
                    (f_elems f) in
    let* m := mprod ms in
    Ok (mscale (powerRZ anorm (f_pow f)) m).

  (** The matrix product of a factor list. *)
  Definition factors_mat (lambdaa : R) (nu_min nu_max : Z) (fs : list factor)
    : res (mat R) :=
    let* ms := mapM (factor_mat lambdaa nu_min nu_max) fs in
    mprod ms.

  (** radial_space.py:1633-1663 [RepRadial_Prod_common]. *)
  Definition RepRadial_Prod_common (rbs_op : list rsym) (lambdaa : R)
      (lambda_var nu_min nu_max nu_lap : Z) : res (mat R) :=
    let* fs := RepRadial_Prod_factors rbs_op lambdaa lambda_var in
    let sh := Z.min nu_lap nu_min in
    let* rep := factors_mat lambdaa (nu_min - sh) (nu_max + nu_lap) fs in
    if nu_lap =? 0 then Ok rep
    else Ok (slice rep sh (1 + nu_max - nu_min + sh) sh (1 + nu_max - nu_min + sh)).
End Eval.
