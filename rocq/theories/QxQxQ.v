(** Model of the four functions of src/acmpy/full_operators.py:1418-1534 that
    implement the cases of [QixQxQred] separately. *)

From Coq Require Import Reals.
From Verif Require Import PyBase Compat Spherical Operators FullOps.
Open Scope Z_scope.

Section CG.
  (** [CG_SO5r3]. *)
  Variable CG : Z -> Z -> Z -> Z -> Z -> Z -> Z -> Z -> Z -> res R.

  (** The sum over the intermediate states (v_int, al, L) common to the
      functions: full_operators.py:1427-1429, 1463-1465, 1531-1533. *)
  Definition mediated (v_i v_int v_f L1 : Z) (mediates : list label) : res (list R) :=
    mapM (fun s : label =>
      let '(_, al, L) := s in
      let* c1 := CG v_int al L 1 1 2 v_f 1 L1 in
      let* c2 := CG v_i 1 L1 2 1 2 v_int al L in
      let* d := dimSO3 L in
      Ok (c1 * c2 * sqrt (IZR d) * powerRZ (-1) L)%R) mediates.

  (** [q1 * q2 * s / c / r]; no number if [c] is zero (see [QixQxQred]). *)
  Definition quotient (q1 q2 : option R) (s c r : R) : option R :=
    match q1, q2 with
    | Some x1, Some x2 => if Req_EM_T c 0 then None else Some (x1 * x2 * s / c / r)%R
    | _, _ => None
    end.

  (** full_operators.py:1418-1430 [QpxQxQred_p1]. *)
  Definition QpxQxQred_p1 (v : Z) : res (option R) :=
    check require_nonnegint v ;;
    let L1 := 2 * v in
    let* mediates := lbsSO5r3_rngL v (L1 - 2) L1 in
    let* q1 := Qred_p1 v in
    let* q2 := QxQred_0 v in
    let* terms := mediated v v (v + 1) L1 mediates in
    let* c := CG v 1 L1 3 1 0 (v + 1) 1 L1 in
    let* d := dimSO3 L1 in
    Ok (quotient q1 q2 (fold_right Rplus 0%R terms) c (sqrt (5 * IZR d))).

  (** full_operators.py:1454-1466 [QmxQxQred_p1]. *)
  Definition QmxQxQred_p1 (v : Z) : res (option R) :=
    check require_nonnegint v ;;
    let L1 := 2 * v in
    let* mediates := lbsSO5r3_rngL (v + 2) (L1 - 2) (L1 + 2) in
    let* q1 := Qred_m1 (v + 2) in
    let* q2 := QxQred_p2 v in
    let* terms := mediated v (v + 2) (v + 1) L1 mediates in
    let* c := CG v 1 L1 3 1 0 (v + 1) 1 L1 in
    let* d := dimSO3 L1 in
    Ok (quotient q1 q2 (fold_right Rplus 0%R terms) c (sqrt (5 * IZR d))).

  (** full_operators.py:1488-1498 [QpxQxQred_m1]. *)
  Definition QpxQxQred_m1 (v : Z) : res (option R) :=
    check require_posint v ;;
    let L1 := 2 * v - 2 in
    let* q1 := Qred_p1 (v - 2) in
    let* q2 := QxQred_m2 v in
    let* c1 := CG (v - 2) 1 (L1 - 2) 1 1 2 (v - 1) 1 L1 in
    let* c2 := CG v 1 L1 2 1 2 (v - 2) 1 (L1 - 2) in
    let* d2 := dimSO3 (L1 - 2) in
    let* c := CG v 1 L1 3 1 0 (v - 1) 1 L1 in
    let* d := dimSO3 (L1 - 2) in
    Ok (quotient q1 q2 (c1 * c2 * sqrt (IZR d2)) c (sqrt (IZR d))).

  (** full_operators.py:1522-1534 [QmxQxQred_m1]. *)
  Definition QmxQxQred_m1 (v : Z) : res (option R) :=
    check require_posint v ;;
    let L1 := 2 * v - 2 in
    let* mediates := lbsSO5r3_rngL v (L1 - 2) (L1 + 2) in
    let* q1 := Qred_m1 v in
    let* q2 := QxQred_0 v in
    let* terms := mediated v v (v - 1) L1 mediates in
    let* c := CG v 1 L1 3 1 0 (v - 1) 1 L1 in
    let* d := dimSO3 L1 in
    Ok (quotient q1 q2 (fold_right Rplus 0%R terms) c (sqrt (5 * IZR d))).
End CG.
