(** Shared vocabulary for the models: Python exceptions as values, integer
    ranges, sums and comprehensions.  Not tied to a particular source file:
    these are the Python language features used everywhere in /repo. *)

From Coq Require Export ZArith List Bool.
Export ListNotations.
Open Scope Z_scope.

(** Python exception classes raised by the modelled code. *)
Inductive exn : Set :=
| TypeError
| ValueError
| KeyError
| IndexError
| AssertionError
| AttributeError
| ZeroDivisionError
| OverflowError
| FileNotFoundError
| UnboundLocalError
| RwcOptimizationError.

(** Outcome of running a Python function: a value or a raised exception. *)
Inductive res (A : Type) : Type :=
| Ok (a : A)
| Raise (e : exn).
Arguments Ok {A} a.
Arguments Raise {A} e.

(** Sequencing: the first exception raised wins. *)
Definition bind {A B} (m : res A) (f : A -> res B) : res B :=
  match m with
  | Ok a => f a
  | Raise e => Raise e
  end.

Notation "'let*' x ':=' m 'in' k" := (bind m (fun x => k))
  (at level 200, x pattern, m at level 100, k at level 200, right associativity).
Notation "'check' m ';;' k" := (bind m (fun _ => k))
  (at level 200, m at level 100, k at level 200, right associativity).

(** [raise_if b e]: the statement [if b: raise e]. *)
Definition raise_if (b : bool) (e : exn) : res unit :=
  if b then Raise e else Ok tt.

(** [py_assert b]: the statement [assert b]. *)
Definition py_assert (b : bool) : res unit :=
  if b then Ok tt else Raise AssertionError.

Definition is_ok {A} (r : res A) : Prop := exists a, r = Ok a.

(** Python [range(lo, hi)]: lo, lo+1, ..., hi-1 (empty when hi <= lo). *)
Definition py_range (lo hi : Z) : list Z :=
  map (fun i => lo + Z.of_nat i) (seq 0 (Z.to_nat (hi - lo))).

(** Python [sum] of a list of ints. *)
Definition zsum (l : list Z) : Z := fold_right Z.add 0 l.

(** A list comprehension / generator whose element expression may raise:
    elements are evaluated left to right and the first exception wins. *)
Fixpoint mapM {A B} (f : A -> res B) (l : list A) : res (list B) :=
  match l with
  | [] => Ok []
  | a :: l' =>
      let* b := f a in
      let* bs := mapM f l' in
      Ok (b :: bs)
  end.

(** Nested comprehension [[... for a in l for b in f a]] with raising parts. *)
Definition concatM {A B} (f : A -> res (list B)) (l : list A) : res (list B) :=
  let* ls := mapM f l in
  Ok (concat ls).

(** Python [len] as an integer. *)
Definition zlen {A} (l : list A) : Z := Z.of_nat (length l).
