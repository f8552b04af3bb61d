(** Model of src/acmpy/hamiltonian_data.py and src/acmpy/eigenvalues.py.
    Simplifications: floats are real numbers; SymPy expressions in one symbol
    are functions of its value. *)

From Coq Require Import Reals.
From Verif Require Import PyBase Compat Operators Settings.
Open Scope Z_scope.

(** [x / y] on floats. *)
Definition fdiv (x y : R) : res R := if Req_EM_T y 0 then Raise ZeroDivisionError else Ok (x / y)%R.

(** hamiltonian_data.py:50-60 [RWC_expt]. *)
Definition RWC_expt (B c1 c2 kappa anorm lambda0 : R) : res R :=
  if Req_EM_T anorm 0 then Raise ValueError
  else if Req_EM_T lambda0 1 then Raise ValueError
  else
    let aa := (anorm ^ 2)%R in
    let* x := fdiv 9 (lambda0 - 1) in
    let* t1 := fdiv (aa * (4 + x) / 8) B in
    let* t2 := fdiv (B * lambda0 * c1 / 2) aa in
    let* t3 := fdiv (B * lambda0 * (lambda0 + 1) * c2 / 2) (aa ^ 2) in
    Ok (t1 + t2 + t3 + kappa / 3)%R.

(** hamiltonian_data.py:93-95 [lam_dav]. *)
Definition lam_dav (a beta0 : R) (v : Z) : res R :=
  let* r := math_sqrt ((IZR v + 1.5) ^ 2 + (a * beta0) ^ 4) in Ok (1 + r)%R.

(** hamiltonian_data.py:107-109 [beta_dav].  Simplification: for c1 < 0 and
    c2 < 0 SymPy returns an imaginary number; here TypeError. *)
Definition beta_dav (c1 c2 : R) : res R :=
  if Rle_dec 0 c1 then Ok 0%R
  else
    let* q := fdiv (- c1) (c2 * 2) in
    if Rlt_dec q 0 then Raise TypeError else Ok (sqrt q).

(** hamiltonian_data.py:82-84 [RWC_dav]. *)
Definition RWC_dav (c1 c2 anorm : R) (v : Z) : res R :=
  let* b := beta_dav c1 c2 in lam_dav anorm b v.

(** hamiltonian_data.py:70-72 [RWC_expt_link]. *)
Definition RWC_expt_link (B c1 c2 kappa anorm : R) : res R :=
  let* lambda0 := RWC_dav c1 c2 anorm 0 in
  RWC_expt B c1 c2 kappa anorm lambda0.

(** hamiltonian_data.py:159-160 [vshftf]. *)
Definition vshftf (v : Z) : Z := (2 * v + 3) ^ 2.

(** hamiltonian_data.py:163-165 [muf], for [c2 != 0]. *)
Definition muf (A c1 c2 : R) (v : Z) : R := sqrt (IZR (vshftf v) + (A * c1 / c2) ^ 2).

(** hamiltonian_data.py:168-169 [RWC1]. *)
Definition RWC1 (A B c1 c2 : R) (v : Z) : R :=
  (A ^ 3 - B ^ 2 * c1 * A - IZR (2 * v + 7) * B ^ 2 * c2)%R.

(** hamiltonian_data.py:172-178 [RWC2], for [c2 != 0]. *)
Definition RWC2 (A mu B c1 c2 : R) (v : Z) : R :=
  let vshft := IZR (vshftf v) in
  ((c1 / c2) ^ 2 * (- vshft * A ^ 5 / mu ^ 2
                    + A ^ 3 * B ^ 2 * c1
                    + A ^ 2 * B ^ 2 * c2 * (mu + 3))
   + A ^ 3 * (2 * mu + vshft)
   - B ^ 2 * mu * (mu + 2) * (A * c1 + c2 * (mu + 4)))%R.

Definition positive (x : R) : bool := if Rlt_dec 0 x then true else false.

(** hamiltonian_data.py:225-226: [while F2(A_pos) <= 0: A_pos *= 2.0].  [None]:
    the loop is still running after [fuel] rounds. *)
Fixpoint doubling (fuel : nat) (F2 : R -> R) (A_pos : R) : option R :=
  if positive (F2 A_pos) then Some A_pos
  else match fuel with O => None | S n => doubling n F2 (A_pos * 2)%R end.

Section Solvers.
  (** [solveset(f, A, domain=Reals)]: the elements in the order of iteration,
      or [None] if the result is not a [FiniteSet]. *)
  Variable solveset : (R -> R) -> option (list R).
  (** [root_scalar(f, bracket=(a, b))]: the root, [None] if not converged. *)
  Variable root_scalar : (R -> R) -> R -> R -> option R.

  (** hamiltonian_data.py:311-323 [RWC_alam_clam]. *)
  Definition RWC_alam_clam (B c1 c2 : R) (v : Z) : res (R * R) :=
    match solveset (fun A => RWC1 A B c1 c2 v) with
    | None => Raise AssertionError
    | Some A0_set =>
        match filter positive A0_set with
        | [] => Raise IndexError
        | aa0 :: _ => let* a := math_sqrt aa0 in Ok (a, 2.5%R)
        end
    end.

  (** hamiltonian_data.py:199-235 [RWC_alam]; [None]: the search loop is still
      running after [fuel] rounds.  The error for lack of convergence is
      [RwcOptimizationError]. *)
  Definition RWC_alam (fuel : nat) (B c1 c2 : R) (v : Z) : option (res (R * R)) :=
    match require_nonnegint v with
    | Raise e => Some (Raise e)
    | Ok _ =>
        if Rle_dec 0 c1 then Some (RWC_alam_clam B c1 c2 v)
        else if Rle_dec c2 0 then Some (Raise ValueError)
        else
          let F2 := fun A => RWC2 A (muf A c1 c2 v) B c1 c2 v in
          if Rlt_dec (F2 0%R) 0 then
            match doubling fuel F2 1 with
            | None => None
            | Some A_pos =>
                match root_scalar F2 0%R A_pos with
                | None => Some (Raise RwcOptimizationError)
                | Some aa0 => Some (let* a := math_sqrt aa0 in Ok (a, (1 + muf aa0 c1 c2 v / 2)%R))
                end
            end
          else Some (Raise AssertionError)
    end.

  (** hamiltonian_data.py:369-380 [RWC_alam_fun]. *)
  Definition RWC_alam_fun (fuel : nat) (B c1 c2 : R) : option (res (R * R * (Z -> res Z))) :=
    match RWC_alam fuel B c1 c2 0 with
    | None => None
    | Some r => Some (
        let* (a0, lam) := r in
        if Rle_dec 0 c1 then Ok (a0, lam, lambda_sho_fun)
        else
          let aa0 := (a0 ^ 2)%R in
          let* q := fdiv (aa0 * c1) (c2 * 2) in
          Ok (a0, lam, lambda_davi_fun (q ^ 2)))
    end.
End Solvers.

(** hamiltonian_data.py:257-265 [RWC_alam36]. *)
Definition RWC_alam36 (B c1 c2 : R) : res (R * R) :=
  if Rlt_dec c1 0 then
    let* x := math_sqrt (- B ^ 2 * c1 / 2) in
    let* a := math_sqrt x in
    let* q := fdiv (B ^ 2 * c1 ^ 4) (c2 ^ 2) in
    let* r := math_sqrt (36 + q) in
    Ok (a, (1 + r / 4)%R)
  else
    let* x := math_sqrt (B * c1 / 4) in
    let* a := math_sqrt x in
    Ok (a, 2.5%R).

(** hamiltonian_data.py:281-286 [A0_case1]. *)
Definition A0_case1 (B c1 : R) : res R :=
  if Rle_dec B 0 then Raise ValueError
  else if Rle_dec c1 0 then Raise ValueError
  else let* r := math_sqrt c1 in Ok (B * r)%R.

(** hamiltonian_data.py:289-296 [A0_case2_approx]; the base of the power is
    positive. *)
Definition A0_case2_approx (B c2 : R) (v : Z) : res R :=
  if Rle_dec B 0 then Raise ValueError
  else if Rle_dec c2 0 then Raise ValueError
  else
    check require_nonnegint v ;;
    Ok (Rpower (c2 * B ^ 2 * IZR (2 * v + 7)) (1 / 3)).

(** hamiltonian_data.py:299-308 [A0_case3_approx]; the base of the power is
    positive. *)
Definition A0_case3_approx (B c1 c2 : R) (v : Z) : res R :=
  if Rle_dec B 0 then Raise ValueError
  else if Rle_dec 0 c1 then Raise ValueError
  else if Rle_dec c2 0 then Raise ValueError
  else
    check require_nonnegint v ;;
    let* r := math_sqrt (B * c2) in
    Ok (r * Rpower (IZR ((2 * v + 3) * (2 * v + 5) * (2 * v + 7)) / (-2 * c1)) (1 / 4))%R.
