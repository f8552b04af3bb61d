(** The part of Python's [str.format] used by src/acmpy/globals.py: replacement
    fields with automatic or explicit numbering, an optional conversion and an
    optional format specification; doubled braces.
    Simplifications: fields nested in a format specification are rejected
    (ValueError); a field name that is not a number raises KeyError (also when
    it has an attribute or an index); the specifications are "", "d", "+d",
    "s" and "f" with an optional width and precision, any other raises
    ValueError; the conversions "!r" and "!a" are taken as "!s" (Python would
    put quotes round a text); floats are printed by a parameter [flt]. *)

From Coq Require Import String Ascii Reals.
From Coq Require Import Lia ZifyBool ZifyNat.
From Verif Require Import PyBase Text.
Open Scope Z_scope.
Ltac Zify.zify_post_hook ::= Z.div_mod_to_equations.

Inductive farg : Type := FInt (z : Z) | FStr (t : text) | FFlt (x : R).

(** [f'{n:d}'] and [f'{n:+d}'] for any integer. *)
Definition dec_int (n : Z) : text := if n <? 0 then chars "-" ++ dec (- n) else dec n.
Definition dec_signed (n : Z) : text := if n <? 0 then chars "-" ++ dec (- n) else chars "+" ++ dec n.

Fixpoint text_eqb (s t : text) : bool :=
  match s, t with
  | [], [] => true
  | a :: s', b :: t' => (a =? b) && text_eqb s' t'
  | _, _ => false
  end.

Inductive piece : Type :=
| PLit (c : Z)
| PField (f : text).

(** The text of a field up to the closing brace. *)
Fixpoint field_end (s : text) : res (text * text) :=
  match s with
  | [] => Raise ValueError
  | c :: s' =>
      if c =? 125 then Ok ([], s')
      else if c =? 123 then Raise ValueError
      else let* (f, r) := field_end s' in Ok (c :: f, r)
  end.

(** 123 is an opening, 125 a closing brace. *)
Fixpoint pieces_fuel (k : nat) (s : text) : res (list piece) :=
  match k with
  | O => Ok []
  | S k' =>
      match s with
      | [] => Ok []
      | c :: s' =>
          if c =? 123 then
            match s' with
            | d :: s'' =>
                if d =? 123
                then let* ps := pieces_fuel k' s'' in Ok (PLit 123 :: ps)
                else let* (f, r) := field_end s' in
                     let* ps := pieces_fuel k' r in Ok (PField f :: ps)
            | [] => Raise ValueError
            end
          else if c =? 125 then
            match s' with
            | d :: s'' =>
                if d =? 125
                then let* ps := pieces_fuel k' s'' in Ok (PLit 125 :: ps)
                else Raise ValueError
            | [] => Raise ValueError
            end
          else let* ps := pieces_fuel k' s' in Ok (PLit c :: ps)
      end
  end.
Definition pieces (s : text) : res (list piece) := pieces_fuel (S (length s)) s.

(** Split a field at the first exclamation mark (33) or colon (58). *)
Fixpoint split_name (s : text) : text * text :=
  match s with
  | [] => ([], [])
  | c :: s' => if (c =? 33) || (c =? 58) then ([], s) else let (n, r) := split_name s' in (c :: n, r)
  end.

(** Conversion ("!s", "!r" or "!a" or none) and format specification. *)
Definition split_spec (s : text) : res (bool * text) :=
  match s with
  | [] => Ok (false, [])
  | c :: s' =>
      if c =? 58 then Ok (false, s')
      else match s' with
           | conv :: s'' =>
               if (conv =? 115) || (conv =? 114) || (conv =? 97) then
                 match s'' with
                 | [] => Ok (true, [])
                 | d :: spec => if d =? 58 then Ok (true, spec) else Raise ValueError
                 end
               else Raise ValueError
           | [] => Raise ValueError
           end
  end.

(** "[width][.precision]f" with decimal width and precision; 46 is a dot, 102
    the letter f. *)
Fixpoint drop_digits (s : text) : text :=
  match s with
  | c :: s' => if is_digit ascii_digit c then drop_digits s' else s
  | [] => []
  end.
Definition float_spec (s : text) : bool :=
  match drop_digits s with
  | [c] => c =? 102
  | d :: ((c :: _) as s') => (d =? 46) && is_digit ascii_digit c && text_eqb (drop_digits s') (chars "f")
  | [] => false
  end.

Section Flt.
  (** Printing a float: by [f'{x}'] or, for example, [f'{x:7.2f}']. *)
  Variable flt : text -> R -> text.

  (** Printing an argument according to a specification. *)
  Definition show_arg (conv : bool) (spec : text) (a : farg) : res text :=
    let str t := if text_eqb spec [] || text_eqb spec (chars "s") then Ok t else Raise ValueError in
    match a with
    | FStr t => str t
    | FInt n =>
        if conv then str (dec_int n)
        else if text_eqb spec [] || text_eqb spec (chars "d") then Ok (dec_int n)
        else if text_eqb spec (chars "+d") then Ok (dec_signed n)
        else if float_spec spec then Ok (flt spec (IZR n))
        else Raise ValueError
    | FFlt x =>
        if conv then str (flt [] x)
        else if text_eqb spec [] || float_spec spec then Ok (flt spec x)
        else Raise ValueError
    end.

  (** [auto] is the next automatic index, -1 after an explicit one; before
      the first field it is 0. *)
  Fixpoint render (ps : list piece) (auto : Z) (args : list farg) : res text :=
    match ps with
    | [] => Ok []
    | PLit c :: ps' => let* t := render ps' auto args in Ok (c :: t)
    | PField f :: ps' =>
        let (name, rest) := split_name f in
        let* (conv, spec) := split_spec rest in
        let* (i, auto') :=
          match name with
          | [] => if auto <? 0 then Raise ValueError else Ok (auto, auto + 1)
          | _ => if forallb (is_digit ascii_digit) name
                 then if 0 <? auto then Raise ValueError else Ok (int_of ascii_digit name, -1)
                 else Raise KeyError
          end in
        let* a := match nth_error args (Z.to_nat i) with Some a => Ok a | None => Raise IndexError end in
        let* t := show_arg conv spec a in
        let* t' := render ps' auto' args in
        Ok (t ++ t')
    end.

  (** [s.format( *args)]. *)
  Definition py_format (s : text) (args : list farg) : res text :=
    let* ps := pieces s in render ps 0 args.
End Flt.
