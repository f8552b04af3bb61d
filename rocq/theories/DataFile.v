(** Model of the readers of SO(5) Clebsch-Gordan data files: so5cg.py
    [parse_line], [load_datafile], [datafile_dict] and compat.py
    [parse_line_float], [readdata_float]. *)

From Coq Require Import Reals.
From Verif Require Import PyBase PyDict Text.
Open Scope Z_scope.

(** so5cg.py:114-118: labels of irreps and of coefficients. *)
Definition irrep : Type := (Z * Z * Z)%type.
Definition coeff_label : Type := (irrep * irrep * irrep)%type.

Lemma label_eq_dec : forall a b : coeff_label, {a = b} + {a <> b}.
Proof. repeat decide equality. Defined.

Section Reader.
  (** White space ([str.strip()] and the class \s of [re] on [str]), [float(s)]
      and [int(s)]. *)
  Variable space : Z -> bool.
  Variable py_float : text -> res R.
  Variable py_int : text -> res Z.
  (** Opening a file and iterating over it: its lines. *)
  Variable lines_of : text -> res (list text).

  Fixpoint lstrip (s : text) : text :=
    match s with
    | c :: s' => if space c then lstrip s' else s
    | [] => []
    end.
  (** [s.strip()]. *)
  Definition py_strip (s : text) : text := rev (lstrip (rev (lstrip s))).

  (** [re.split(r'\s+', s)]: never empty; a maximal run of white space
      separates two fields, which may be empty. *)
  Fixpoint split_ws (s : text) : list text :=
    match s with
    | [] => [[]]
    | c :: s' =>
        if space c then
          match s' with
          | d :: _ => if space d then split_ws s' else [] :: split_ws s'
          | [] => [] :: split_ws s'
          end
        else
          match split_ws s' with
          | f :: fs => (c :: f) :: fs
          | [] => [[c]]
          end
    end.

  (** compat.py:93-98 [parse_line_float]. *)
  Definition parse_line_float (line : text) : res R :=
    let fields := split_ws (py_strip line) in
    match fields with
    | f :: _ => py_float f
    | [] => Raise IndexError
    end.

  (** compat.py:101-107 [readdata_float]. *)
  Definition readdata_float (filename : text) : res (list R) :=
    let* lines := lines_of filename in
    mapM parse_line_float lines.

  (** so5cg.py:124-147 [parse_line] (the type check is left to typing). *)
  Definition parse_line (line : text) : res (R * coeff_label) :=
    let fields := split_ws (py_strip line) in
    check raise_if (negb (zlen fields =? 10)) ValueError ;;
    match fields with
    | f0 :: rest =>
        let* coeff := py_float f0 in
        let* labels := mapM py_int rest in
        match labels with
        | [v1; a1; L1; v2; a2; L2; v3; a3; L3] =>
            Ok (coeff, ((v1, a1, L1), (v2, a2, L2), (v3, a3, L3)))
        | _ => Raise IndexError
        end
    | [] => Raise IndexError
    end.

  (** so5cg.py:150-160 [load_datafile]. *)
  Definition load_datafile (path : text) : res (list (R * coeff_label)) :=
    let* lines := lines_of path in
    mapM parse_line lines.

  (** so5cg.py:163-174 [datafile_dict]. *)
  Definition datafile_dict (path : text) : res (list (coeff_label * R)) :=
    let* lines := load_datafile path in
    Ok (dict_of label_eq_dec (map (fun line => (snd line, fst line)) lines)).
End Reader.
