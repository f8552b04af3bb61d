(** Model of src/acmpy/papers/wr2015.py: formulas of the paper [WR2015] as
    functions of real numbers. *)

From Coq Require Import Reals.
Open Scope R_scope.

(** wr2015.py:16-19 [lambdav_61]. *)
Definition lambdav_61 (lambda0 : R) (v : Z) : R := lambda0 + IZR v.

(** wr2015.py:25-28 [lambdav_62]. *)
Definition lambdav_62 (lambda0 : R) (v : Z) : R := lambda0 + IZR (v mod 2).

(** wr2015.py:34-35 [lambdav_63]. *)
Definition lambdav_63 (lambda0 : R) (v : Z) : R := lambda0.

(** wr2015.py:41-44 [lambda0_B11]. *)
Definition lambda0_B11 (a beta0 : R) : R := 1 + sqrt (9 / 4 + (a * beta0) ^ 4).

(** wr2015.py:50-53 [beta0_B15]. *)
Definition beta0_B15 (c1 c2 : R) : R := if Rlt_dec c1 0 then sqrt (- c1 / (2 * c2)) else 0.

(** wr2015.py:59-64 [E_B16]. *)
Definition E_B16 (a lambda0 B c1 c2 : R) : R :=
  a ^ 2 / (2 * B) * (1 + 9 / (4 * (lambda0 - 1)))
  + B / (2 * a ^ 2) * c1 * lambda0
  + B / (2 * a ^ 4) * c2 * lambda0 * (lambda0 + 1).
