(** Model of src/acmpy/eigenvalues.py and of the second half of
    src/acmpy/full_space.py: display of eigenvalues and matrix elements, and the
    procedures that scale or adapt.
    Simplifications: floats are real numbers and are printed by a parameter
    [flt]; division by zero, which gives NumPy's infinity or nan without an
    exception, is Coq's [x / 0]; the width and the precision of printed numbers
    are not negative, as the setting procedure ensures; the formats that
    [Show_Mels] leaves in module variables for [Show_Mels_Row] are passed as
    arguments. *)

From Coq Require Import String Reals.
From Verif Require Import PyBase Compat Text Format Operators Spherical FullLabels Matrix FullSpace Settings.
Open Scope Z_scope.

(** A procedure with output: an outcome, the settings left, the lines printed. *)
Definition prog (A : Type) : Type := settings -> res A * settings * list text.
Definition pret {A} (a : A) : prog A := fun s => (Ok a, s, []).
Definition praise {A} (m : res A) : prog A := fun s => (m, s, []).
Definition pget : prog settings := fun s => (Ok s, s, []).
Definition passign (f : settings -> settings) : prog unit := fun s => (Ok tt, f s, []).
Definition print (t : text) : prog unit := fun s => (Ok tt, s, [t]).
Definition pbind {A B} (m : prog A) (f : A -> prog B) : prog B := fun s =>
  let '(r, s1, o1) := m s in
  match r with
  | Ok a => let '(r2, s2, o2) := f a s1 in (r2, s2, o1 ++ o2)
  | Raise e => (Raise e, s1, o1)
  end.
Notation "'run*' x '<-' m ';;' k" := (pbind m (fun x => k))
  (at level 200, x pattern, m at level 100, k at level 200, right associativity).
Notation "'run!' m ';;' k" := (pbind m (fun _ => k))
  (at level 200, m at level 100, k at level 200, right associativity).

Fixpoint pmap {A} (f : A -> prog unit) (l : list A) : prog unit :=
  match l with [] => pret tt | x :: l' => run! f x ;; pmap f l' end.

Definition mem (x : Z) (l : list Z) : bool := existsb (Z.eqb x) l.

(** [','.join(l)]. *)
Fixpoint join_comma (l : list text) : text :=
  match l with
  | [] => []
  | [t] => t
  | t :: l' => t ++ chars "," ++ join_comma l'
  end.

(** [x[i]] for a one-dimensional array or a list. *)
Definition py_get {A} (l : list A) (i : Z) : res A :=
  let j := if i <? 0 then i + zlen l else i in
  if j <? 0 then Raise IndexError
  else match nth_error l (Z.to_nat j) with Some x => Ok x | None => Raise IndexError end.

(** [m[i, j]] for a two-dimensional array. *)
Definition np_index (n i : Z) : res Z :=
  let j := if i <? 0 then i + n else i in
  if (0 <=? j) && (j <? n) then Ok j else Raise IndexError.
Definition np_get {A} (m : mat A) (i j : Z) : res A :=
  let* i' := np_index (nrows m) i in
  let* j' := np_index (ncols m) j in
  Ok (ent m i' j').

Definition transpose {A} (m : mat A) : mat A := mkMat (ncols m) (nrows m) (fun i j => ent m j i).

(** eigenvalues.py:66-77 [Eigenfiddle]; [eigh] is [np.linalg.eigh]. *)
Definition Eigenfiddle (eigh : mat R -> res (list R * mat R)) (Hmatrix : mat R) : res (list R * mat R) :=
  check raise_if (negb (nrows Hmatrix =? ncols Hmatrix)) ValueError ;;
  eigh (mscale (/ 2) (madd Hmatrix (transpose Hmatrix))).

(** full_space.py:522-523 [min_head]. *)
Definition heads (alist : list (list R)) : list R :=
  flat_map (fun nlist => match nlist with x :: _ => [x] | [] => [] end) alist.
Definition min_head (alist : list (list R)) : res R :=
  match heads alist with
  | [] => Raise ValueError
  | x :: l => Ok (fold_left Rmin l x)
  end.

(** full_space.py:422 [L_MAX_DEFAULT]. *)
Definition L_MAX_DEFAULT : Z := 1000000.

(** [f'{L:2d}']. *)
Definition dec2 (L : Z) : text := let t := dec_int L in if zlen t <? 2 then chars " " ++ t else t.

(** "[w].[p]f". *)
Definition wp_spec (w : text) (p : Z) : text := w ++ chars "." ++ dec_int p ++ chars "f".

(** An instance of LBlockNDFloatArray: the matrix and the full space. *)
Definition block_array : Type := (mat R * LBlockFullSpace)%type.

Section Printing.
  (** Printing of floats, see Format.v. *)
  Variable flt : text -> R -> text.
  Let fmt := py_format flt.

  (** full_space.py:506-512: one line. *)
  Definition eig_line (s : settings) (toshow : Z) (eigen_low : R) (L : Z) (vals : list R) : text :=
    chars "  At L=" ++ dec2 L ++ chars ": ["
    ++ join_comma (map (fun val => flt (wp_spec (dec_int (g_rel_wid s)) (g_rel_pre s)) ((val - eigen_low) / g_eig_sft s)%R)
                       (firstn (Z.to_nat toshow) vals))
    ++ chars "]".

  (** full_space.py:470-514 [Show_Eigs]. *)
  Definition Show_Eigs (eigen_vals : list (list R)) (Lvals : list Z) (toshow : option Z) (L_min L_max : option Z)
    : prog (option R) :=
    let toshow := default 4 toshow in
    run! praise (require_nonnegint toshow) ;;
    if (toshow =? 0) || (zlen eigen_vals =? 0) then pret None
    else
      let '(Lmin, Lmax, L_top) :=
        match L_min, L_max with
        | Some l, None => (l, L_MAX_DEFAULT, l)
        | _, _ => let l := default 0 L_min in let h := default L_MAX_DEFAULT L_max in (l, h, h)
        end in
      run! praise (require_nonnegint_range Lmin Lmax) ;;
      if negb (existsb (fun L => (Lmin <=? L) && (L <=? L_top)) Lvals) then pret None
      else
        run* s <- pget ;;
        let low := wp_spec [] (g_low_pre s) in
        run* eigen_low <-
          (if g_eig_rel s then
             run* m <- praise (min_head eigen_vals) ;;
             run! print (chars "Lowest eigenvalue is " ++ flt low m ++ chars ". Relative eigenvalues follow"
                    ++ chars " (each divided by " ++ flt low (g_eig_sft s) ++ chars "):") ;;
             pret m
           else
             run! print (chars "Scaled eigenvalues follow (each divided by " ++ flt low (g_eig_sft s) ++ chars ":") ;;
             pret 0%R) ;;
        run! pmap (fun '(L, vals) =>
               if (Lmin <=? L) && (L <=? L_top) then print (eig_line s toshow eigen_low L vals) else pret tt)
             (combine Lvals eigen_vals) ;;
        pret (Some eigen_low).

  (** The formats of full_space.py:790-801: for one element, for a row, for one
      item of a row. *)
  Definition item_format (s : settings) : text :=
    chars "{:" ++ wp_spec (dec_int (g_rel_wid s)) (g_rel_pre s) ++ chars "}".
  Definition mel_f1 (s : settings) (mel_format : text) : res text :=
    let num := FStr (chars "{:d}") in
    let* tran_fmat1 := fmt (g_tran_format s) [num; num; num; num] in
    fmt mel_format [FStr tran_fmat1; FStr (item_format s)].
  Definition mel_f2 (s : settings) (mel_format : text) : res text :=
    let num := FStr (chars "{:d}") in
    let* tran_fmat2 := fmt (g_tran_format s) [num; FStr (g_tran_fill s); num; num] in
    fmt mel_format [FStr tran_fmat2; FStr (chars "{:s}")].

  Section Mels.
    Variable s : settings.
    Variable Melements : block_array.
    Variable f1 f2 : text.
    Variable toshow : Z.
    Variable fn : mel_fun.
    Variable scale : R.
    Let Lvals := fs_Lvals (snd Melements).

    (** full_space.py:954-979 [Show_Mels_Row]. *)
    Definition Show_Mels_Row (L1 L2 n2 : Z) : prog Z :=
      if negb (mem L1 Lvals) || negb (mem L2 Lvals) then pret 0
      else
        run* TR_matrix <- praise (get_block (fst Melements) (snd Melements) L2 L1) ;;
        let TR_rows := nrows TR_matrix in
        let TR_cols := ncols TR_matrix in
        if (TR_rows <? n2) || (TR_cols =? 0) then pret 0
        else
          let col_count := Z.min TR_cols toshow in
          run* mels <- praise (mapM (fun n1 =>
              let* x := np_get TR_matrix (n2 - 1) (n1 - 1) in
              let* y := fn (g_rat_TRopAM s) L1 L2 x in
              fmt (item_format s) [FFlt (y / scale)%R]) (py_range 1 (col_count + 1))) ;;
          run* line <- praise (fmt f2 [FInt L1; FInt L2; FInt n2; FStr (chars "[" ++ join_comma mels ++ chars "]")]) ;;
          run! print line ;;
          pret 1.

    (** full_space.py:879-881, 907-909: [for n2 in range(...)] with [break]. *)
    Fixpoint rows_from (L1 L2 : Z) (n2s : list Z) : prog unit :=
      match n2s with
      | [] => pret tt
      | n2 :: n2s' =>
          run* r <- Show_Mels_Row L1 L2 n2 ;;
          if r <=? 0 then pret tt else rows_from L1 L2 n2s'
      end.

    (** full_space.py:902-909 [Show_Mels_Rows]. *)
    Definition Show_Mels_Rows (L2 : Z) : prog unit :=
      let TRopAM := g_rat_TRopAM s in
      pmap (fun L1 => rows_from L1 L2 (py_range 1 (toshow + 1)))
           (py_range (Z.max 0 (L2 - TRopAM)) (L2 + TRopAM + 1)).

    (** full_space.py:830-840, 862-869: one element. *)
    Definition show_mel (L1 L2 n1 n2 : Z) : prog unit :=
      if mem L1 Lvals && mem L2 Lvals then
        run* TR_matrix <- praise (get_block (fst Melements) (snd Melements) L2 L1) ;;
        if (0 <? n1) && (n1 <=? ncols TR_matrix) && (0 <? n2) && (n2 <=? nrows TR_matrix) then
          run* x <- praise (np_get TR_matrix (n2 - 1) (n1 - 1)) ;;
          run* y <- praise (fn (g_rat_TRopAM s) L1 L2 x) ;;
          run* line <- praise (fmt f1 [FInt L1; FInt n1; FInt L2; FInt n2; FFlt (y / scale)%R]) ;;
          print line
        else pret tt
      else pret tt.

    (** full_space.py:860-873: the [while] loop, [Lcount + 1] rounds. *)
    Fixpoint mel_steps (rounds : nat) (L1 L2 n1 n2 Lmod : Z) : prog unit :=
      match rounds with
      | O => pret tt
      | S k => run! show_mel L1 L2 n1 n2 ;; mel_steps k (L1 + Lmod) (L2 + Lmod) n1 n2 Lmod
      end.

    (** full_space.py:842-873: a quintet. *)
    Definition show_quintet (L1 L2 n1 n2 Lmod : Z) : prog unit :=
      if (n1 <=? 0) || (n2 <=? 0) then pret tt
      else if 0 <? Lmod then
        run* top <- praise (py_get Lvals (-1)) ;;
        run* Lcount <- praise (iquo (top - Z.max L1 L2) Lmod) ;;
        mel_steps (Z.to_nat (Lcount + 1)) L1 L2 n1 n2 Lmod
      else if Lmod <? 0 then
        run* Lcount <- praise (iquo (Z.min L1 L2) (- Lmod)) ;;
        mel_steps (Z.to_nat (Lcount + 1)) (L1 - Lcount * - Lmod) (L2 - Lcount * - Lmod) n1 n2 (- Lmod)
      else mel_steps 1 L1 L2 n1 n2 Lmod.

    (** full_space.py:803-899: the loop body; the text of a tuple. *)
    Definition dec_tuple (l : list Z) : text :=
      chars "(" ++ (fix go l := match l with [] => [] | [x] => dec_int x | x :: l' => dec_int x ++ chars ", " ++ go l' end) l ++ chars ")".
    Definition show_designator (ent : list Z) : prog unit :=
      match ent with
      | [] => pmap Show_Mels_Rows Lvals
      | [L2] => if L2 <? 0 then pret tt else Show_Mels_Rows L2
      | L1 :: L2 :: rest =>
          if 5 <? zlen ent then print (chars "  Bad matrix element specification: " ++ dec_tuple ent)
          else if (L1 <? 0) || (L2 <? 0) then pret tt
          else match rest with
               | [n1; n2] => show_mel L1 L2 n1 n2
               | [n1; n2; Lmod] => show_quintet L1 L2 n1 n2 Lmod
               | [n2] => run! Show_Mels_Row L1 L2 n2 ;; pret tt
               | _ => rows_from L1 L2 (py_range 1 (toshow + 1))
               end
      end.
  End Mels.

  (** full_space.py:770-899 [Show_Mels]. *)
  Definition Show_Mels (Melements : block_array) (mel_lst : list (list Z)) (toshow : Z) (fn : mel_fun) (scale : R)
    (mel_format mel_desg : text) : prog unit :=
    match mel_lst with
    | [] => pret tt
    | _ =>
        run! praise (raise_if (nrows (fst Melements) =? 0) ValueError) ;;
        run* s <- pget ;;
        run! print (chars "Selected " ++ mel_desg ++ chars " follow"
                ++ chars " (each divided by " ++ flt (wp_spec [] (g_low_pre s)) scale ++ chars "):") ;;
        run* f1 <- praise (mel_f1 s mel_format) ;;
        run* f2 <- praise (mel_f2 s mel_format) ;;
        pmap (show_designator s Melements f1 f2 toshow fn scale) mel_lst
    end.

  (** full_space.py:1025-1036 [Show_Rats]; the defaults are those at import time. *)
  Definition Show_Rats (Melements : block_array) (rat_lst : option (list (list Z))) (toshow : option Z) : prog unit :=
    run* s <- pget ;;
    Show_Mels Melements (default [] rat_lst) (default 4 toshow) (g_rat_fun s) (g_rat_sft s) (g_rat_format s) (g_rat_desg s).

  (** full_space.py:1052-1063 [Show_Amps]. *)
  Definition Show_Amps (Melements : block_array) (amp_lst : option (list (list Z))) (toshow : option Z) : prog unit :=
    run* s <- pget ;;
    Show_Mels Melements (default [] amp_lst) (default 4 toshow) (g_amp_fun s) (g_amp_sft s) (g_amp_format s) (g_amp_desg s).

  Section Driver.
    (** [RepXspace] as a function of the settings and its arguments
        (FullOps.v), [np.linalg.eigh], [np.linalg.inv] and the contents of
        uninitialised memory. *)
    Variable RepX : settings -> OperatorSum -> R -> R -> Z -> Z -> Z -> Z -> Z -> option Z -> res (mat R).
    Variable eigh : mat R -> res (list R * mat R).
    Variable inv : mat R -> res (mat R).
    Variable junk : Z -> Z -> R.

    Definition known (m : mat (option R)) : mat R :=
      mkMat (nrows m) (ncols m) (fun i j => match ent m i j with Some x => x | None => junk i j end).

    Section Space.
      Variables (ham_op : OperatorSum) (anorm lambda_base : R) (nu_min nu_max v_min v_max : Z).
      Let dim L := dimXspace nu_min nu_max v_min v_max L None.

      (** full_space.py:1279-1282 and alike. *)
      Definition check_reference (L idx L_min L_mx : Z) : res unit :=
        check raise_if ((L <? L_min) || (L_mx <? L)) ValueError ;;
        let* d := dim L in
        raise_if (d <? idx) ValueError.

      (** full_space.py:1300-1313: scale of the eigenvalues. *)
      Definition fit_eigenvalues (eigen_vals : list (list R)) (Lvals : list Z) : prog unit :=
        run* s <- pget ;;
        run* eigen_low <- praise (if g_eig_rel s then min_head eigen_vals else Ok 0%R) ;;
        run! praise (raise_if (negb (mem (g_eig_L s) Lvals)) ValueError) ;;
        run* vals <- praise (match find (fun '(L, _) => L =? g_eig_L s) (combine Lvals eigen_vals) with
                             | Some (_, vals) => Ok vals
                             | None => Raise IndexError
                             end) ;;
        run* val <- praise (py_get vals (g_eig_idx s - 1)) ;;
        let sft := ((val - eigen_low) / g_eig_fit s)%R in
        run! passign (w_eig_sft sft) ;;
        if Req_EM_T sft 0 then praise (Raise ValueError) else pret tt.

      (** full_space.py:1326-1345: scales of the rates and amplitudes. *)
      Definition fit_rates (trans : block_array) (Lvals : list Z) : prog unit :=
        run* s <- pget ;;
        let L1 := g_rat_L1 s in
        let L2 := g_rat_L2 s in
        run! praise (raise_if (negb (mem L1 Lvals)) ValueError) ;;
        run! praise (raise_if (negb (mem L2 Lvals)) ValueError) ;;
        run* block <- praise (get_block (fst trans) (snd trans) L2 L1) ;;
        run* mel <- praise (np_get block (g_rat_2dx s - 1) (g_rat_1dx s - 1)) ;;
        run* rate <- praise (g_rat_fun s (g_rat_TRopAM s) L1 L2 mel) ;;
        let sft := (Rabs rate / g_rat_fit s)%R in
        run! passign (w_rat_sft sft) ;;
        if Req_EM_T sft 0 then praise (Raise ValueError)
        else
          run* a <- praise (g_amp_sft_fun s sft) ;;
          passign (w_amp_sft a).

      (** full_space.py:1264-1352 [ACM_ScaleOrAdapt]. *)
      Definition ACM_ScaleOrAdapt (fit_eig fit_rat : Z) (L_min : Z) (L_max : option Z)
        : prog (list (list R) * option block_array * list Z) :=
        run! praise (require_nonnegint fit_eig) ;;
        run! praise (require_nonnegint fit_rat) ;;
        run! praise (require_nonnegint_range nu_min nu_max) ;;
        run! praise (require_nonnegint_range v_min v_max) ;;
        let L_mx := match L_max with None => L_min | Some l => l end in
        run! praise (require_nonnegint_range L_min L_mx) ;;
        run* s <- pget ;;
        run! (if (0 <? fit_eig) && (0 <? g_eig_num s)
              then praise (check_reference (g_eig_L s) (g_eig_idx s) L_min L_mx) else pret tt) ;;
        run! (if (0 <? fit_rat) && (0 <? zlen (g_rat_lst s)) then
                run! praise (check_reference (g_rat_L1 s) (g_rat_1dx s) L_min L_mx) ;;
                praise (check_reference (g_rat_L2 s) (g_rat_2dx s) L_min L_mx)
              else pret tt) ;;
        run* (eigen_vals, eigen_bases, Lvals) <-
          praise (DigXspace (RepX s ham_op anorm lambda_base nu_min nu_max v_min v_max) (Eigenfiddle eigh)
                    (Op_Tame ham_op) nu_min nu_max v_min v_max L_min L_max) ;;
        run! (if 0 <? g_eig_num s then
                run! (if 0 <? fit_eig then fit_eigenvalues eigen_vals Lvals else pret tt) ;;
                run! Show_Eigs eigen_vals Lvals (Some (g_eig_num s)) None None ;; pret tt
              else pret tt) ;;
        run* trans <-
          (if (0 <? zlen (g_rat_lst s)) || (0 <? zlen (g_amp_lst s)) then
             run* (m, fs) <- praise (AmpXspeig
                 (fun lo hi => RepX s (g_rat_TRop s) anorm lambda_base nu_min nu_max v_min v_max lo (Some hi))
                 inv eigen_bases nu_min nu_max v_min v_max Lvals) ;;
             let trans := (known m, fs) in
             run! (if 0 <? fit_rat then fit_rates trans Lvals else pret tt) ;;
             run! Show_Rats trans (Some (g_rat_lst s)) (Some (g_rat_num s)) ;;
             run! Show_Amps trans (Some (g_amp_lst s)) (Some (g_amp_num s)) ;;
             pret (Some trans)
           else pret None) ;;
        pret (eigen_vals, trans, Lvals).

      (** full_space.py:1372-1379 [ACM_Scale], 1398-1405 [ACM_Adapt]. *)
      Definition ACM_Scale := ACM_ScaleOrAdapt 0 0.
      Definition ACM_Adapt := ACM_ScaleOrAdapt 1 1.
    End Space.
  End Driver.
End Printing.
