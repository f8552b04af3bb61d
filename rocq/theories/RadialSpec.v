(** Specification vocabulary for radial operator words: what the symbols and
    the elementary matrices mean as operators, and what it means for a product
    of matrices to chain through radial bases.  Independent of the algorithms
    in RadialOps.v (only the names of symbols and matrices are shared). *)

From Verif Require Import PyBase RadialOps.
Open Scope Z_scope.

(** An interpretation of the basic radial operators: any associative algebra
    of operators with a unit in which beta and 1/beta are inverse. *)
Record alg : Type := mkAlg {
  car :> Type;
  one : car;
  mul : car -> car -> car;
  mul_assoc : forall x y z, mul x (mul y z) = mul (mul x y) z;
  mul_1_l : forall x, mul one x = x;
  mul_1_r : forall x, mul x one = x;
  beta : car;
  beta_inv : car;
  beta_l : mul beta_inv beta = one;
  beta_r : mul beta beta_inv = one;
  deriv : car;
  op_Sm : car;
  op_S0 : car;
  op_Sp : car;
  op_other : Z -> car
}.

Section Meaning.
  Variable A : alg.
  Notation "x * y" := (mul A x y).

  Fixpoint npow (x : A) (n : nat) : A :=
    match n with O => one A | S k => x * npow x k end.

  (** beta^K for any integer K, and d^T/dbeta^T. *)
  Definition beta_pow (K : Z) : A :=
    if 0 <=? K then npow (beta A) (Z.to_nat K) else npow (beta_inv A) (Z.to_nat (- K)).
  Definition deriv_pow (T : Z) : A := npow (deriv A) (Z.to_nat T).

  Fixpoint oprod (l : list A) : A :=
    match l with [] => one A | x :: l' => x * oprod l' end.

  (** Meaning of the symbols of a radial operator word. *)
  Definition sym_op (s : rsym) : A :=
    match s with
    | Radial_Sm => op_Sm A
    | Radial_S0 => op_S0 A
    | Radial_Sp => op_Sp A
    | Radial_b2 => beta A * beta A
    | Radial_bm2 => beta_inv A * beta_inv A
    | Radial_D2b => deriv A * deriv A
    | Radial_bDb => beta A * deriv A
    | Radial_b => beta A
    | Radial_bm => beta_inv A
    | Radial_Db => deriv A
    | Radial_other k => op_other A k
    end.

  (** The operator a word stands for: the product of its symbols in order. *)
  Definition word_op (w : list rsym) : A := oprod (map sym_op w).

  (** The operator a parsed factor stands for: beta^K d^T, or S-, S0, S+. *)
  Definition ktsop_op (p : ktsop) : A :=
    match p with
    | KTOp K T => beta_pow K * deriv_pow T
    | SOp s => if s =? -1 then op_Sm A else if s =? 0 then op_S0 A else op_Sp A
    end.

  (** The operator each elementary matrix represents. *)
  Definition elem_op (e : elem) : A :=
    match e with
    | M_Sm => op_Sm A
    | M_S0 => op_S0 A
    | M_Sp => op_Sp A
    | M_b2 => beta A * beta A
    | M_bm2 => beta_inv A * beta_inv A
    | M_D2b => deriv A * deriv A
    | M_bDb => beta A * deriv A
    | M_b_pl | M_b_ml | M_b2_sqrt => beta A
    | M_bm_pl | M_bm_ml | M_b2_sqrtInv => beta_inv A
    | M_Db_pl | M_Db_ml => deriv A
    | M_id_pl _ | M_id_ml _ | M_eye => one A
    end.

  Definition elems_op (l : list (elem * Z)) : A :=
    oprod (map (fun eo => elem_op (fst eo)) l).
End Meaning.

(** By how much each elementary matrix changes lambda: [_pl] raises it by one,
    [_ml] lowers it by one, the identities change it by 2r. *)
Definition elem_shift (e : elem) : Z :=
  match e with
  | M_b_pl | M_bm_pl | M_Db_pl => 1
  | M_b_ml | M_bm_ml | M_Db_ml => -1
  | M_id_pl r => 2 * r
  | M_id_ml r => - (2 * r)
  | _ => 0
  end.

(** [chains l src dst]: the rightmost matrix of [l] acts on the basis
    [lambda + src], every other one acts on the basis in which its right
    neighbour ends, and the leftmost ends in the basis [lambda + dst]. *)
Inductive chains : list (elem * Z) -> Z -> Z -> Prop :=
| chains_nil : forall s, chains [] s s
| chains_cons : forall e o l s,
    chains l s o -> chains ((e, o) :: l) s (o + elem_shift e).

(** Degree of a symbol / of a word in beta, 1/beta and d/dbeta. *)
Definition sym_degree (s : rsym) : Z :=
  match s with
  | Radial_b | Radial_bm | Radial_Db => 1
  | Radial_b2 | Radial_bm2 | Radial_D2b | Radial_bDb => 2
  | _ => 0
  end.
Definition word_degree (w : list rsym) : Z := zsum (map sym_degree w).

Definition is_basic (s : rsym) : bool :=
  match s with Radial_other _ => false | _ => true end.

(** Parsed operators that can exist: the constructors reject others. *)
Definition valid_op (p : ktsop) : Prop :=
  match p with KTOp _ T => 0 <= T | SOp s => s = -1 \/ s = 0 \/ s = 1 end.

Definition degree (p : ktsop) : Z :=
  match p with KTOp K T => Z.abs K + T | SOp _ => 0 end.
Definition is_S (p : ktsop) : Prop :=
  match p with SOp _ => True | _ => False end.

(** The elementary matrices of a list of factors, leftmost first, with the
    offset of the basis each acts on. *)
Definition flat (fs : list factor) : list (elem * Z) := flat_map f_elems fs.

(** Scaling: beta carries 1/a, 1/beta and d/dbeta carry a. *)
Definition word_pow (w : list rsym) : Z :=
  zsum (map (fun s => match s with
    | Radial_b => -1 | Radial_b2 => -2 | Radial_bm => 1 | Radial_bm2 => 2
    | Radial_Db => 1 | Radial_D2b => 2 | _ => 0 end) w).
