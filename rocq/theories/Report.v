(** Model of what the procedures of src/acmpy/globals.py print: the same
    procedures as in Settings.v, with the argument [show] and the output.
    Each element of the output is the text of one [print], without the final
    newline; a text printed with [end=''] is put in front of the next one.
    Functions stored in the settings and operators are printed by parameters. *)

From Coq Require Import String Reals.
From Verif Require Import PyBase Compat Text Format Operators Spherical FullLabels Matrix Settings FullSpace Display.
Open Scope Z_scope.

(** [repr] of a tuple of integers with at least two elements. *)
Fixpoint join_comma_space (l : list text) : text :=
  match l with
  | [] => []
  | [t] => t
  | t :: l' => t ++ chars ", " ++ join_comma_space l'
  end.
Definition repr_tuple (l : list Z) : text := chars "(" ++ join_comma_space (map dec_int l) ++ chars ")".

(** A text between double quotes. *)
Definition quoted (t : text) : text := 34 :: t ++ [34].
Definition newline : text := [10].

Section Report.
  (** Printing of floats, see Format.v. *)
  Variable flt : text -> R -> text.
  (** [__name__] of a function, [str] of a function, [str] of an operator. *)
  Variable name_sft : (R -> res R) -> text.
  Variable str_mel : mel_fun -> text.
  Variable str_lam : (Z -> res Z) -> text.
  Variable str_op : OperatorSum -> text.
  Let fmt := py_format flt.

  (** [if x is not None: ...] and [if show > 0: ...]. *)
  Definition pwhen {A} (x : option A) (f : A -> prog unit) : prog unit :=
    match x with Some a => f a | None => pret tt end.
  Definition shown (show : Z) (m : prog unit) : prog unit := if 0 <? show then m else pret tt.

  (** globals.py:473-479 [ACM_show_scales]. *)
  Definition show_scalesR (show : Z) : prog (R * R * R) :=
    run* s <- pget ;;
    run! shown show (
      run* a <- praise (reciprocal (g_eig_sft s)) ;;
      run! print (chars "Relative eigenenergies to be multiplied by " ++ flt [] a ++ chars ";") ;;
      run* b <- praise (reciprocal (g_rat_sft s)) ;;
      run! print (quoted (g_rat_desg s) ++ chars " to be multiplied by " ++ flt [] b ++ chars ";") ;;
      run* c <- praise (reciprocal (g_amp_sft s)) ;;
      print (quoted (g_amp_desg s) ++ chars " to be multiplied by " ++ flt [] c ++ chars ".")) ;;
    pret (g_eig_sft s, g_rat_sft s, g_amp_sft s).

  (** globals.py:439-452 [ACM_set_scales]. *)
  Definition set_scalesR (eig_sft rat_sft : option R) (show : Z) : prog unit :=
    run! pwhen eig_sft (fun x => passign (w_eig_sft x)) ;;
    run! pwhen rat_sft (fun x => passign (w_rat_sft x)) ;;
    run* s <- pget ;;
    run* a <- praise (g_amp_sft_fun s (g_rat_sft s)) ;;
    run! passign (w_amp_sft a) ;;
    run! show_scalesR show ;;
    pret tt.

  (** globals.py:499-508 [ACM_set_sft_fun]. *)
  Definition set_sft_funR (amp_fun : option (R -> res R)) (show : Z) : prog (R -> res R) :=
    run! passign (w_amp_sft_fun (default math_sqrt amp_fun)) ;;
    run* s <- pget ;;
    run! shown show (print (quoted (g_amp_desg s) ++ chars " scaling factor calculated using the procedure: "
      ++ name_sft (g_amp_sft_fun s) ++ chars ".")) ;;
    pret (g_amp_sft_fun s).

  (** globals.py:536-559 [ACM_set_output]. *)
  Definition set_outputR (rel_pre rel_wid low_pre : option Z) (show : Z) : prog (Z * Z * Z) :=
    run! pwhen rel_pre (fun x => run! praise (require_nonnegint x) ;; passign (w_rel_pre x)) ;;
    run! pwhen rel_wid (fun x => run! praise (require_nonnegint x) ;; passign (w_rel_wid x)) ;;
    run! pwhen low_pre (fun x => run! praise (require_nonnegint x) ;; passign (w_low_pre x)) ;;
    run* s <- pget ;;
    run! shown show (
      run! print (dec_int (g_rel_pre s) ++ chars " decimal places for each displayed value,") ;;
      run! print (dec_int (g_rel_wid s) ++ chars " total digits for each displayed value,") ;;
      print (chars "except " ++ dec_int (g_low_pre s) ++ chars " decimal places for lowest (absolute) eigenvalue.")) ;;
    pret (g_rel_pre s, g_rel_wid s, g_low_pre s).

  (** globals.py:584-602 [ACM_set_listln]. *)
  Definition set_listlnR (eig_num rat_num : option Z) (show : Z) : prog (Z * Z * Z) :=
    run! pwhen eig_num (fun x => run! praise (require_nonnegint x) ;; passign (w_eig_num x)) ;;
    run! pwhen rat_num (fun x => run! praise (require_nonnegint x) ;; run! passign (w_rat_num x) ;; passign (w_amp_num x)) ;;
    run* s <- pget ;;
    run! shown show (
      run! print (chars "Display lowest " ++ dec_int (g_eig_num s) ++ chars " eigenvalue(s) at each L.") ;;
      print (chars "Display lowest " ++ dec_int (g_rat_num s) ++ chars " rate/amplitude(s) in each list.")) ;;
    pret (g_eig_num s, g_rat_num s, g_amp_num s).

  (** globals.py:623-636 [ACM_set_datum]. *)
  Definition set_datumR (datflag : option Z) (show : Z) : prog bool :=
    let datflag := default 1 datflag in
    run! praise (require_nonnegint datflag) ;;
    run! passign (w_eig_rel (0 <? datflag)) ;;
    run* s <- pget ;;
    run! shown show (
      if g_eig_rel s then print (chars "Eigenvalues displayed relative to minimal value.")
      else print (chars "Absolute eigenvalues displayed.")) ;;
    pret (g_eig_rel s).

  (** globals.py:659-676 [ACM_set_eig_fit]. *)
  Definition set_eig_fitR (eig_fit : option R) (eig_L eig_idx : option Z) (show : Z) : prog (R * Z * Z) :=
    let eig_fit := default 6%R eig_fit in
    let eig_L := default 2 eig_L in
    let eig_idx := default 1 eig_idx in
    run! praise (require_nonnegint eig_L) ;;
    run! praise (require_posint eig_idx) ;;
    run! passign (w_eig_fit eig_fit) ;;
    run! passign (w_eig_L eig_L) ;;
    run! passign (w_eig_idx eig_idx) ;;
    run* s <- pget ;;
    run! shown show (
      print (chars "In ACM_Adapt, the scaling factor for relative eigenvalues is chosen such that" ++ newline ++
             chars "that for the " ++ dec_int (g_eig_L s) ++ chars "(" ++ dec_int (g_eig_idx s) ++ chars ") state is "
             ++ flt (chars "f") (g_eig_fit s))) ;;
    pret (g_eig_fit s, g_eig_L s, g_eig_idx s).

  (** globals.py:716-744 [ACM_set_rat_fit]. *)
  Definition set_rat_fitR (rat_fit : option R) (rat_L1 rat_L2 rat_1dx rat_2dx : option Z) (show : Z) : prog (R * Z * Z * Z * Z) :=
    let rat_fit := default 100%R rat_fit in
    let rat_L1 := default 2 rat_L1 in
    let rat_L2 := default 0 rat_L2 in
    let rat_1dx := default 1 rat_1dx in
    let rat_2dx := default 1 rat_2dx in
    run! praise (require_nonnegint rat_L1) ;;
    run! praise (require_nonnegint rat_L2) ;;
    run! praise (require_posint rat_1dx) ;;
    run! praise (require_posint rat_2dx) ;;
    run! passign (w_rat_fit rat_fit) ;;
    run! passign (w_rat_L1 rat_L1) ;;
    run! passign (w_rat_L2 rat_L2) ;;
    run! passign (w_rat_1dx rat_1dx) ;;
    run! passign (w_rat_2dx rat_2dx) ;;
    run* s <- pget ;;
    run! shown show (
      let d := FStr (chars "{:d}") in
      run* tran_fmat <- praise (fmt (g_tran_format s) [d; d; d; d]) ;;
      run* rat_fmt <- praise (fmt (g_rat_format s) [FStr tran_fmat; FStr (chars "{:f}")]) ;;
      run* rat_this <- praise (fmt rat_fmt [FInt (g_rat_L1 s); FInt (g_rat_1dx s); FInt (g_rat_L2 s); FInt (g_rat_2dx s);
                                           FFlt (g_rat_fit s)]) ;;
      print (chars "In ACM_Adapt, the scaling factor for " ++ quoted (g_rat_desg s) ++ chars " is chosen such that" ++ newline ++
             rat_this)) ;;
    pret (g_rat_fit s, g_rat_L1 s, g_rat_L2 s, g_rat_1dx s, g_rat_2dx s).

  (** globals.py:847-852: the formats computed before a listing. *)
  Definition list_formats (s : settings) : res (text * text * text * text * text * text) :=
    let d := FStr (chars "{:d}") in
    let dk := FStr (chars "{:d}{:+d}k") in
    let L_i := FStr (chars "L_i") in
    let j_i := FStr (chars "j_i") in
    let L_f := FStr (chars "L_f") in
    let j_f := FStr (chars "j_f") in
    let* format5 := fmt (g_tran_format s) [dk; d; dk; d] in
    let* format4 := fmt (g_tran_format s) [d; d; d; d] in
    let* format3 := fmt (g_tran_format s) [d; j_i; d; d] in
    let* format2 := fmt (g_tran_format s) [d; j_i; d; j_f] in
    let* format1 := fmt (g_tran_format s) [L_i; j_i; d; j_f] in
    let* format0 := fmt (g_tran_format s) [L_i; j_i; L_f; j_f] in
    Ok (format5, format4, format3, format2, format1, format0).

  (** globals.py:860-872: one entry of a listing. *)
  Definition list_entry (formats : text * text * text * text * text * text) (ent : list Z) : res text :=
    let '(format5, format4, format3, format2, format1, format0) := formats in
    match ent with
    | [a; b; c; d; k] =>
        if negb (k =? 0) then fmt format5 [FInt a; FInt k; FInt c; FInt b; FInt k; FInt d]
        else fmt format4 [FInt a; FInt b; FInt c; FInt d]
    | [a; b; c; d] => fmt format4 [FInt a; FInt b; FInt c; FInt d]
    | [a; b; c] => fmt format3 [FInt a; FInt b; FInt c]
    | [a; b] => fmt format2 [FInt a; FInt b]
    | [a] => fmt format1 [FInt a]
    | _ => Ok format0
    end.

  (** globals.py:843-877 [ACM_show_lst]. *)
  Definition show_lstR (lst : list (list Z)) (desg : text) (show : Z) : prog (list (list Z)) :=
    run* s <- pget ;;
    run! shown show (
      if 0 <? zlen lst then
        run* formats <- praise (list_formats s) ;;
        run! print (chars "Following " ++ quoted desg ++ chars " are set to be displayed:") ;;
        pmap (fun ent =>
          if 5 <? zlen ent then pret tt
          else run* t <- praise (list_entry formats ent) ;; print (chars "  " ++ t)) lst
      else print (chars "Currently, no " ++ quoted desg ++ chars " are set to be displayed.")) ;;
    pret lst.

  (** globals.py:880-881, 983-984 [ACM_show_rat_lst], [ACM_show_amp_lst]. *)
  Definition show_rat_lstR (show : Z) : prog (list (list Z)) :=
    run* s <- pget ;; show_lstR (g_rat_lst s) (g_rat_desg s) show.
  Definition show_amp_lstR (show : Z) : prog (list (list Z)) :=
    run* s <- pget ;; show_lstR (g_amp_lst s) (g_amp_desg s) show.

  (** globals.py:779-788 [ACM_add_rat_lst]. *)
  Fixpoint add_rat_lstR (rat_lst : list (list Z)) : prog Z :=
    match rat_lst with
    | [] => run* s <- pget ;; pret (zlen (g_rat_lst s))
    | rat_ent :: rest =>
        run! (if 5 <? zlen rat_ent then print (chars "  Bad transition rate specification: " ++ repr_tuple rat_ent)
              else run* s <- pget ;; passign (w_rat_lst (g_rat_lst s ++ [rat_ent]))) ;;
        add_rat_lstR rest
    end.

  (** globals.py:758-762 [ACM_set_rat_lst]. *)
  Definition set_rat_lstR (rat_lst : option (list (list Z))) : prog Z :=
    run! passign (w_rat_lst []) ;; add_rat_lstR (default [] rat_lst).

  (** globals.py:916-925 [ACM_add_amp_lst]. *)
  Fixpoint add_amp_lstR (amp_lst : list (list Z)) : prog Z :=
    match amp_lst with
    | [] => run* s <- pget ;; pret (zlen (g_amp_lst s))
    | amp_ent :: rest =>
        run! (if 5 <? zlen amp_ent then print (chars "  Bad amplitude specification: " ++ repr_tuple amp_ent)
              else run* s <- pget ;; passign (w_amp_lst (g_amp_lst s ++ [amp_ent]))) ;;
        add_amp_lstR rest
    end.

  (** globals.py:895-899 [ACM_set_amp_lst]. *)
  Definition set_amp_lstR (amp_lst : option (list (list Z))) : prog Z :=
    run! passign (w_amp_lst []) ;; add_amp_lstR (default [] amp_lst).

  (** globals.py:1015-1033 [ACM_set_transition]. *)
  Definition set_transitionR (TR_op : option OperatorSum) (show : Z) : prog (OperatorSum * Z) :=
    let TR_op := default quad_op TR_op in
    run! passign (w_rat_TRop TR_op) ;;
    let rat_AM := Op_AM TR_op in
    run! passign (w_rat_TRopAM (Z.abs rat_AM)) ;;
    run* s <- pget ;;
    run! shown show (
      run! print (chars "In ACM_Scale and ACM_Adapt, transition matrix elements now calculated for the operator:" ++ newline ++
                  g_rat_desg s ++ str_op (g_rat_TRop s)) ;;
      if 0 <=? rat_AM then print (chars "(This has angular momentum " ++ dec_int rat_AM ++ chars ")." ++ newline)
      else print (chars "(This has indeterminate angular momentum: maximum " ++ dec_int (- rat_AM) ++ chars ")." ++ newline)) ;;
    pret (g_rat_TRop s, g_rat_TRopAM s).

  (** globals.py:1068-1090 [ACM_set_rat_form].  [print] of three texts puts
      blanks between them. *)
  Definition set_rat_formR (f : option mel_fun) (format desg : option text) (show : Z) : prog (mel_fun * text * text) :=
    run! passign (w_rat_fun (default quad_rat_fun f)) ;;
    run! passign (w_rat_format (default def_rat_format format)) ;;
    run! passign (w_rat_desg (default def_rat_desg desg)) ;;
    run* s <- pget ;;
    run! shown show (
      run! print (chars "These are calculated from the (alternative reduced) transition matrix elements" ++ newline ++
                  chars "using the procedure: " ++ quoted (str_mel (g_rat_fun s))) ;;
      run* tran_fmat1 <- praise (fmt (g_tran_format s)
        [FStr (chars "L_i"); FStr (chars "j_i"); FStr (chars "L_f"); FStr (chars "j_f")]) ;;
      print (chars "Each will be output using the format:" ++ newline ++ chars "  " ++
             g_rat_format s ++ chars " " ++ tran_fmat1 ++ chars " *")) ;;
    pret (g_rat_fun s, g_rat_format s, g_rat_desg s).

  (** globals.py:1121-1143 [ACM_set_amp_form]. *)
  Definition set_amp_formR (f : option mel_fun) (format desg : option text) (show : Z) : prog (mel_fun * text * text) :=
    run! passign (w_amp_fun (default quad_amp_fun f)) ;;
    run! passign (w_amp_format (default def_amp_format format)) ;;
    run! passign (w_amp_desg (default def_amp_desg desg)) ;;
    run* s <- pget ;;
    run! shown show (
      run! print (chars "ACM_Scale and ACM_Adapt now set to display " ++ quoted (g_amp_desg s) ++ chars " second.") ;;
      run! print (chars "These are calculated from the (alternative reduced) transition matrix elements" ++ newline ++
                  chars "using the procedure: " ++ quoted (str_mel (g_amp_fun s)) ++ chars ".") ;;
      run* tran_fmat1 <- praise (fmt (g_tran_format s)
        [FStr (chars "L_i"); FStr (chars "j_i"); FStr (chars "L_f"); FStr (chars "j_f")]) ;;
      print (chars "Each will be output using the format:" ++ newline ++ chars "  " ++
             g_amp_format s ++ chars " " ++ tran_fmat1 ++ chars " *")) ;;
    pret (g_amp_fun s, g_amp_format s, g_amp_desg s).

  (** globals.py:1157-1166 [ACM_set_lambda_fun]. *)
  Definition set_lambda_funR (lambda_fun : Z -> res Z) (show : Z) : prog (Z -> res Z) :=
    run! passign (w_lam_fun lambda_fun) ;;
    run* s <- pget ;;
    run! shown show (print (chars "lambda values calculated from v using the procedure: " ++ quoted (str_lam (g_lam_fun s)) ++ chars ",")) ;;
    pret (g_lam_fun s).

  (** globals.py:1212-1239 [ACM_set_basis_type]. *)
  Definition set_basis_typeR (choice : Z) (abeta0 : option R) (show : Z) : prog (Z -> res Z) :=
    let abeta0 := default 0%R abeta0 in
    run! praise (require_nonnegint choice) ;;
    run! (if choice =? 0 then
            run! shown show (print (chars "Using the constant lambda basis.")) ;;
            set_lambda_funR lambda_fix_fun 0
          else if choice =? 1 then
            run! shown show (print (chars "Using the harmonic oscillator basis with lambda_v = lambda_0 + v.")) ;;
            set_lambda_funR lambda_sho_fun 0
          else if choice =? 2 then
            run! shown show (print (chars "Using the ACM parity basis.")) ;;
            set_lambda_funR lambda_acm_fun 0
          else if choice =? 3 then
            run! shown show (print (chars "Using integer Davidson basis for potential with minimum at " ++ flt [] abeta0 ++ chars " (dimensionless).")) ;;
            set_lambda_funR (lambda_davi_fun (abeta0 ^ 4)) 0
          else praise (Raise ValueError)) ;;
    run* s <- pget ;;
    pret (g_lam_fun s).

  (** globals.py:1324-1344 [ACM_set_defaults]. *)
  Definition set_defaultsR (show : Z) : prog unit :=
    run! set_outputR (Some 2) (Some 7) (Some 4) show ;;
    run! set_listlnR (Some 4) (Some 4) show ;;
    run! set_datumR (Some 1) show ;;
    run! set_basis_typeR 2 (Some 0%R) show ;;
    run! set_transitionR (Some quad_op) show ;;
    run! set_rat_formR (Some quad_rat_fun) (Some def_rat_format) (Some def_rat_desg) show ;;
    run! set_amp_formR (Some quad_amp_fun) (Some def_amp_format) (Some def_amp_desg) show ;;
    run! set_sft_funR (Some math_sqrt) show ;;
    run! set_eig_fitR (Some 6%R) (Some 2) (Some 1) show ;;
    run! set_rat_fitR (Some 100%R) (Some 2) (Some 0) (Some 1) (Some 1) show ;;
    run! set_rat_lstR (Some []) ;;
    run! set_amp_lstR (Some []) ;;
    run! show_rat_lstR show ;;
    run! show_amp_lstR show ;;
    run! set_scalesR (Some 1%R) (Some 1%R) show ;;
    shown show (print []).

  (** A call of Settings.v made with a value of [show], where it takes one:
      the exception raised, if any, the settings left, the output. *)
  Definition result {A} (p : res A * settings * list text) : option exn * settings * list text :=
    let '(r, s, o) := p in (match r with Ok _ => None | Raise e => Some e end, s, o).

  Definition performR (c : setter) (show : Z) (s : settings) : option exn * settings * list text :=
    match c with
    | SetScales a b w => result (set_scalesR a b w s)
    | ShowScales w => result (show_scalesR w s)
    | SetSftFun f => result (set_sft_funR f show s)
    | SetOutput a b d => result (set_outputR a b d show s)
    | SetListln a b => result (set_listlnR a b show s)
    | SetDatum a => result (set_datumR a show s)
    | SetEigFit a b d => result (set_eig_fitR a b d show s)
    | SetRatFit a b d e f w => result (set_rat_fitR a b d e f w s)
    | SetRatLst l => result (set_rat_lstR l s)
    | AddRatLst l => result (add_rat_lstR l s)
    | ShowRatLst w => result (show_rat_lstR w s)
    | SetAmpLst l => result (set_amp_lstR l s)
    | AddAmpLst l => result (add_amp_lstR l s)
    | ShowAmpLst w => result (show_amp_lstR w s)
    | SetTransition op => result (set_transitionR op show s)
    | SetRatForm f a b w => result (set_rat_formR f a b w s)
    | SetAmpForm f a b w => result (set_amp_formR f a b w s)
    | SetLambdaFun f => result (set_lambda_funR f show s)
    | SetBasisType a b => result (set_basis_typeR a b show s)
    | SetDefaults w => result (set_defaultsR w s)
    end.
End Report.
