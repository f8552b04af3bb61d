(** Model of the data file naming: src/acmpy/so5_so3_cg.py (file names) and
    src/acmpy/so5cg.py (parsing of names, directory dictionaries). *)

From Coq Require Import String.
From Verif Require Import PyBase Compat PyDict Text.
Open Scope Z_scope.

Definition quintet : Type := (Z * Z * Z * Z * Z)%type.

(** so5_so3_cg.py:42-45 [require_SO5Triple]. *)
Definition require_SO5Triple (v a L : Z) : res unit :=
  check require_nonnegint v ;;
  check require_posint a ;;
  require_nonnegint L.

(** so5_so3_cg.py:34-39 [require_SO5Quintet]. *)
Definition require_SO5Quintet (v1 v2 a2 L2 v3 : Z) : res unit :=
  check require_nonnegint v1 ;;
  check require_SO5Triple v2 a2 L2 ;;
  require_nonnegint v3.

(** so5_so3_cg.py:97-103 [SO5CG_filename]; the configured base directory is an
    argument. *)
Definition SO5CG_filename (directory : text) (v1 v2 a2 L2 v3 : Z) : res text :=
  check require_SO5Quintet v1 v2 a2 L2 v3 ;;
  Ok (directory ++ chars "v2=" ++ dec v2
      ++ chars "/SO5CG_" ++ dec v1 ++ chars "_" ++ dec v2 ++ chars "_" ++ dec v3
      ++ chars "/SO5CG_" ++ dec v1 ++ chars "_" ++ dec v2 ++ chars "-" ++ dec a2
      ++ chars "-" ++ dec L2 ++ chars "_" ++ dec v3)%list.

(** so5cg.py:181 [datafile_name_re], 222 [dir2_name_re], 253 [dir1_name_re]. *)
Definition datafile_name_re : list item :=
  [Lit (chars "SO5CG_"); Digits; Lit (chars "_"); Digits; Lit (chars "-"); Digits;
   Lit (chars "-"); Digits; Lit (chars "_"); Digits].
Definition dir2_name_re : list item :=
  [Lit (chars "SO5CG_"); Digits; Lit (chars "_"); Digits; Lit (chars "_"); Digits].
Definition dir1_name_re : list item := [Lit (chars "v2="); Digits].

(** Directory contents in the order in which [iterdir] lists them. *)
Inductive node : Type :=
| NFile (name : text)
| NDir (name : text) (children : list node).

Definition node_name (n : node) : text := match n with NFile s => s | NDir s _ => s end.

Lemma quintet_eq_dec : forall a b : quintet, {a = b} + {a <> b}.
Proof. repeat decide equality. Defined.
Lemma triple_eq_dec : forall a b : Z * Z * Z, {a = b} + {a <> b}.
Proof. repeat decide equality. Defined.

Definition opt_eq_dec {A} (dec : forall a b : A, {a = b} + {a <> b}) :
  forall a b : option A, {a = b} + {a <> b}.
Proof. decide equality. Defined.

Section Parse.
  Variable udigit : Z -> option Z.

  (** so5cg.py:195-206 [parse_datafile_name]. *)
  Definition parse_datafile_name (name : text) : option quintet :=
    match match_ints udigit datafile_name_re name with
    | Some [v1; v2; a2; L2; v3] => Some (v1, v2, a2, L2, v3)
    | _ => None
    end.

  (** so5cg.py:235-240 [parse_dir2_name]. *)
  Definition parse_dir2_name (name : text) : option (Z * Z * Z) :=
    match match_ints udigit dir2_name_re name with
    | Some [v1; v2; v3] => Some (v1, v2, v3)
    | _ => None
    end.

  (** so5cg.py:266-284 [parse_dir1_name]. *)
  Definition parse_dir1_name (name : text) : option Z :=
    match match_ints udigit dir1_name_re name with
    | Some [v2] => Some v2
    | _ => None
    end.

  Definition matches (re : list item) (name : text) : bool :=
    match rmatch udigit re name with [] => false | _ => true end.

  (** so5cg.py:187-192 [is_datafile_path], 228-233 [is_dir2_path], 259-264
      [is_dir1_path]. *)
  Definition is_datafile_path (n : node) : bool :=
    match n with NFile s => matches datafile_name_re s | _ => false end.
  Definition is_dir2_path (n : node) : bool :=
    match n with NDir s _ => matches dir2_name_re s | _ => false end.
  Definition is_dir1_path (n : node) : bool :=
    match n with NDir s _ => matches dir1_name_re s | _ => false end.

  Definition children (n : node) : list node := match n with NDir _ c => c | NFile _ => [] end.

  (** so5cg.py:243-248 [dir2_dict], 287-288 [dir1_dict], 296-297 [base_dict]:
      dictionary comprehensions over the listing of a directory. *)
  Definition dir2_dict (listing : list node) : list (option quintet * node) :=
    dict_of (opt_eq_dec quintet_eq_dec)
      (map (fun f => (parse_datafile_name (node_name f), f)) (filter is_datafile_path listing)).
  Definition dir1_dict (listing : list node)
    : list (option (Z * Z * Z) * list (option quintet * node)) :=
    dict_of (opt_eq_dec triple_eq_dec)
      (map (fun d => (parse_dir2_name (node_name d), dir2_dict (children d)))
           (filter is_dir2_path listing)).
  Definition base_dict (listing : list node) :=
    dict_of (opt_eq_dec Z.eq_dec)
      (map (fun d => (parse_dir1_name (node_name d), dir1_dict (children d)))
           (filter is_dir1_path listing)).
End Parse.
