(** Model of src/acmpy/so5_so3_cg.py: SO(5)>SO(3) Clebsch-Gordan tables. *)

From Coq Require Import Reals.
From Verif Require Import PyBase Compat PyDict Text SO5Files Spherical.
Open Scope Z_scope.

Definition quartet : Type := (Z * Z * Z * Z)%type.

Lemma quartet_eq_dec : forall a b : quartet, {a = b} + {a <> b}.
Proof. repeat decide equality. Defined.

(** so5_so3_cg.py:145-157 [CG_labels]. *)
Definition CG_labels (v1 L2 v3 : Z) : res (list quartet) :=
  check require_nonnegint v1 ;;
  check require_nonnegint L2 ;;
  check require_nonnegint v3 ;;
  concatM (fun L1 =>
    let* d1 := dimSO5r3 v1 L1 in
    concatM (fun a1 =>
      concatM (fun L3 =>
        let* d3 := dimSO5r3 v3 L3 in
        Ok (map (fun a3 => (a1, L1, a3, L3)) (py_range 1 (d3 + 1))))
        (py_range (Z.abs (L1 - L2)) (Z.min (L1 + L2) (2 * v3) + 1)))
      (py_range 1 (d1 + 1)))
    (py_range 0 (2 * v1 + 1)).

(** The module state: [SO5CGConfig.base_directory] (67-84) and the table
    [CG_coeffs] (257). *)
Record cg_state : Type := {
  base_directory : option text;
  CG_coeffs : list (quintet * list (quartet * R))
}.

(** The state of a fresh interpreter. *)
Definition cg_init : cg_state := {| base_directory := None; CG_coeffs := [] |}.

Section World.
  (** [files path] is what [readdata_float] (compat.py:101-107) makes of the
      file at [path]: the numbers in its first column, or the exception raised
      by opening or parsing it.  [home] is the expanded default directory. *)
  Variable files : text -> res (list R).
  Variable home : text.

  (** so5_so3_cg.py:80-84 [get_base_directory]. *)
  Definition get_base_directory (st : cg_state) : text :=
    match base_directory st with Some d => d | None => home end.

  (** so5_so3_cg.py:75-78 [set_base_directory]. *)
  Definition set_base_directory (d : text) (st : cg_state) : cg_state :=
    {| base_directory := Some d; CG_coeffs := CG_coeffs st |}.

  (** so5_so3_cg.py:183-201 [get_CG_file]. *)
  Definition get_CG_file (st : cg_state) (v1 v2 a2 L2 v3 : Z) : res (list R * list quartet) :=
    check require_SO5Quintet v1 v2 a2 L2 v3 ;;
    let* d2 := dimSO5r3 v2 L2 in
    check raise_if ((v2 + v3 <? v1) || (v3 + v1 <? v2) || (v1 + v2 <? v3)
                    || is_odd (v1 + v2 + v3) || (v3 <? v1) || (d2 <? a2)) ValueError ;;
    let* filename := SO5CG_filename (get_base_directory st) v1 v2 a2 L2 v3 in
    let* CG_data := files filename in
    let* CG_list := CG_labels v1 L2 v3 in
    Ok (CG_data, CG_list).

  (** so5_so3_cg.py:225-240 [show_CG_file]: the number announced and the lines
      printed after it. *)
  Definition show_CG_file (st : cg_state) (v1 v2 a2 L2 v3 : Z) : res (Z * list (quartet * R)) :=
    check require_SO5Quintet v1 v2 a2 L2 v3 ;;
    let* cg_table := get_CG_file st v1 v2 a2 L2 v3 in
    Ok (zlen (fst cg_table), combine (snd cg_table) (fst cg_table)).

  (** so5_so3_cg.py:301-316 [load_CG_table]: result and new state. *)
  Definition load_CG_table (st : cg_state) (v1 v2 a2 L2 v3 : Z) : res unit * cg_state :=
    match require_SO5Quintet v1 v2 a2 L2 v3 with
    | Raise e => (Raise e, st)
    | Ok _ =>
        let '(v1, v3) := if v3 <? v1 then (v3, v1) else (v1, v3) in
        let key : quintet := (v1, v2, a2, L2, v3) in
        match dict_get quintet_eq_dec (CG_coeffs st) key with
        | Some _ => (Ok tt, st)
        | None =>
            let table :=
              let* CG_list := CG_labels v1 L2 v3 in
              let* CG_data :=
                if 0 <? v2 then
                  let* filename := SO5CG_filename (get_base_directory st) v1 v2 a2 L2 v3 in
                  files filename
                else Ok (repeat 1%R (length CG_list)) in
              Ok (dict_of quartet_eq_dec (combine CG_list CG_data)) in
            match table with
            | Raise e => (Raise e, st)
            | Ok t =>
                (Ok tt, {| base_directory := base_directory st;
                           CG_coeffs := dict_set quintet_eq_dec (CG_coeffs st) key t |})
            end
        end
    end.

  (** so5_so3_cg.py:348-367 [CG_SO5r3]: result and new state. *)
  Definition CG_SO5r3 (st : cg_state) (v1 a1 L1 v2 a2 L2 v3 a3 L3 : Z) : res R * cg_state :=
    let excluded :=
      check require_SO5Triple v1 a1 L1 ;;
      check require_SO5Triple v2 a2 L2 ;;
      check require_SO5Triple v3 a3 L3 ;;
      let* d1 := dimSO5r3 v1 L1 in
      let* d2 := dimSO5r3 v2 L2 in
      let* d3 := dimSO5r3 v3 L3 in
      Ok ((v1 + v2 <? v3) || (v1 + v3 <? v2) || (v2 + v3 <? v1)
          || (L1 + L2 <? L3) || (L1 + L3 <? L2) || (L2 + L3 <? L1)
          || (d1 <? a1) || (d2 <? a2) || (d3 <? a3) || is_odd (v1 + v2 + v3)) in
    match excluded with
    | Raise e => (Raise e, st)
    | Ok true => (Ok 0%R, st)
    | Ok false =>
        let '(r, st') := load_CG_table st v1 v2 a2 L2 v3 in
        let value :=
          check r ;;
          if v1 <=? v3 then
            let* t := dict_item quintet_eq_dec (CG_coeffs st') (v1, v2, a2, L2, v3) in
            dict_item quartet_eq_dec t (a1, L1, a3, L3)
          else
            let* t := dict_item quintet_eq_dec (CG_coeffs st') (v3, v2, a2, L2, v1) in
            let* x := dict_item quartet_eq_dec t (a3, L3, a1, L1) in
            let* D3 := dimSO5 v3 in
            let* e1 := dimSO3 L1 in
            let* D1 := dimSO5 v1 in
            let* e3 := dimSO3 L3 in
            Ok (x * powerRZ (-1) (L3 + L2 - L1)
                * sqrt (IZR (D3 * e1) / IZR D1 / IZR e3))%R in
        (value, st')
    end.

  (** ** Histories of calls *)

  Inductive cg_event : Type :=
  | ESetDir (d : text)
  | ELoad (v1 v2 a2 L2 v3 : Z)
  | ECoeff (v1 a1 L1 v2 a2 L2 v3 a3 L3 : Z).

  (** The state left by a call, whether it returns or raises. *)
  Definition cg_step (st : cg_state) (e : cg_event) : cg_state :=
    match e with
    | ESetDir d => set_base_directory d st
    | ELoad v1 v2 a2 L2 v3 => snd (load_CG_table st v1 v2 a2 L2 v3)
    | ECoeff v1 a1 L1 v2 a2 L2 v3 a3 L3 => snd (CG_SO5r3 st v1 a1 L1 v2 a2 L2 v3 a3 L3)
    end.

  Definition cg_run (st : cg_state) (h : list cg_event) : cg_state := fold_left cg_step h st.
End World.
