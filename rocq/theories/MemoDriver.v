(** Model of the drivers of src/acmpy/full_space.py with the memo tables of
    full_operators.py: as Display.v and FullSpace.v, but [RepXspace] reads and
    updates the tables. *)

From Coq Require Import String Reals.
From Verif Require Import PyBase Compat Text Format Operators Spherical FullLabels Matrix RadialOps FullOps FullSpace Settings Display Examples.
Open Scope Z_scope.

Section Dig.
  Variable RepX : Z -> option Z -> M (mat R).
  Variable Eig : mat R -> res (list R * mat R).
  Variable tame : bool.
  Variables nu_min nu_max v_min v_max : Z.

  (** full_space.py:169-179. *)
  Fixpoint dig_tameM (Ls : list Z) (acc : dig_out) : M dig_out :=
    match Ls with
    | [] => retM (Ok acc)
    | LL :: Ls' =>
        bindM (retM (dimSO5r3_rngV v_min v_max LL)) (fun sph_dim =>
        if 0 <? sph_dim then
          bindM (RepX LL None) (fun L_matrix =>
          bindM (retM (Eig L_matrix)) (fun '(vals, bases) =>
          let '(evs, ebs, Lvals) := acc in
          dig_tameM Ls' (evs ++ [vals], ebs ++ [bases], Lvals ++ [LL])))
        else dig_tameM Ls' acc)
    end.

  (** full_space.py:141-197 [DigXspace]. *)
  Definition DigXspaceM (L_min : Z) (L_max : option Z) : M dig_out :=
    let LLM := match L_max with None => L_min | Some l => l end in
    bindM (retM (check require_nonnegint_range nu_min nu_max ;;
                 check require_nonnegint_range v_min v_max ;;
                 require_nonnegint_range L_min LLM)) (fun _ =>
    if tame then dig_tameM (py_range L_min (LLM + 1)) ([], [], [])
    else
      bindM (RepX L_min (Some LLM)) (fun rep =>
      retM (dig_full Eig v_min v_max rep (dimRadial nu_min nu_max) (py_range L_min (LLM + 1)) 1 ([], [], [])))).
End Dig.

(** full_space.py:356-375 [AmpXspeig]. *)
Definition AmpXspeigM (RepX : Z -> Z -> M (mat R)) (inv : mat R -> res (mat R))
  (eigen_bases : list (mat R)) (nu_min nu_max v_min v_max : Z) (Lvals : list Z)
  : M (mat (option R) * LBlockFullSpace) :=
  bindM (retM (check validate_Lvals Lvals ;;
               let* fs := LBlockFullSpace_init nu_min nu_max v_min v_max Lvals in
               let* ends := head_last Lvals in Ok (fs, ends))) (fun '(fs, (L_min, L_max)) =>
  bindM (RepX L_min L_max) (fun tran_mat =>
  retM (let* tran := LBlockNDFloatArray_init tran_mat in
        let* result := LBlockNDFloatArray_init (np_empty (nrows tran_mat) (ncols tran_mat)) in
        let* eigen_invs := mapM inv eigen_bases in
        let* result := amp_rows fs tran (combine eigen_bases Lvals) (combine eigen_invs Lvals) result in
        Ok (result, fs)))).

(** Programs that also read and write the memo tables. *)
Definition mprog (A : Type) : Type := settings -> memo -> res A * settings * memo * list text.
Definition of_prog {A} (p : prog A) : mprog A := fun s t => let '(r, s', o) := p s in (r, s', t, o).
Definition of_M {A} (m : M A) : mprog A := fun s t => let '(r, x) := m (mkX (g_lam_fun s) t) in (r, s, x_memo x, []).
Definition mbind {A B} (m : mprog A) (f : A -> mprog B) : mprog B := fun s t =>
  let '(r, s1, t1, o1) := m s t in
  match r with
  | Ok a => let '(r2, s2, t2, o2) := f a s1 t1 in (r2, s2, t2, o1 ++ o2)
  | Raise e => (Raise e, s1, t1, o1)
  end.

Notation "'memo*' x '<-' m ';;' k" := (mbind m (fun x => k))
  (at level 200, x pattern, m at level 100, k at level 200, right associativity).
Notation "'memo!' m ';;' k" := (mbind m (fun _ => k))
  (at level 200, m at level 100, k at level 200, right associativity).

Section Driver.
  Variable flt : text -> R -> text.
  Variable RP : list rsym -> R -> R -> Z -> Z -> Z -> Z -> res (mat R).
  Variable CG : Z -> Z -> Z -> Z -> Z -> Z -> Z -> Z -> Z -> res R.
  Variable eigh : mat R -> res (list R * mat R).
  Variable inv : mat R -> res (mat R).
  Variable junk : Z -> Z -> R.

  (** full_space.py:1264-1352 [ACM_ScaleOrAdapt]. *)
  Definition ACM_ScaleOrAdaptM (ham_op : OperatorSum) (anorm lambda_base : R) (nu_min nu_max v_min v_max : Z)
    (fit_eig fit_rat : Z) (L_min : Z) (L_max : option Z) : mprog (list (list R) * option block_array * list Z) :=
    let RepX op := RepXspace RP CG op anorm lambda_base nu_min nu_max v_min v_max in
    let reference := check_reference nu_min nu_max v_min v_max in
    memo! of_prog (praise (require_nonnegint fit_eig)) ;;
    memo! of_prog (praise (require_nonnegint fit_rat)) ;;
    memo! of_prog (praise (require_nonnegint_range nu_min nu_max)) ;;
    memo! of_prog (praise (require_nonnegint_range v_min v_max)) ;;
    let L_mx := match L_max with None => L_min | Some l => l end in
    memo! of_prog (praise (require_nonnegint_range L_min L_mx)) ;;
    memo* s <- of_prog pget ;;
    memo! of_prog (if (0 <? fit_eig) && (0 <? g_eig_num s)
                   then praise (reference (g_eig_L s) (g_eig_idx s) L_min L_mx) else pret tt) ;;
    memo! of_prog (if (0 <? fit_rat) && (0 <? zlen (g_rat_lst s)) then
                     run! praise (reference (g_rat_L1 s) (g_rat_1dx s) L_min L_mx) ;;
                     praise (reference (g_rat_L2 s) (g_rat_2dx s) L_min L_mx)
                   else pret tt) ;;
    memo* (eigen_vals, eigen_bases, Lvals) <-
      of_M (DigXspaceM (RepX ham_op) (Eigenfiddle eigh) (Op_Tame ham_op) nu_min nu_max v_min v_max L_min L_max) ;;
    memo! of_prog (if 0 <? g_eig_num s then
                     run! (if 0 <? fit_eig then fit_eigenvalues eigen_vals Lvals else pret tt) ;;
                     run! Show_Eigs flt eigen_vals Lvals (Some (g_eig_num s)) None None ;; pret tt
                   else pret tt) ;;
    memo* trans <-
      (if (0 <? zlen (g_rat_lst s)) || (0 <? zlen (g_amp_lst s)) then
         memo* (m, fs) <- of_M (AmpXspeigM (fun lo hi => RepX (g_rat_TRop s) lo (Some hi))
                                  inv eigen_bases nu_min nu_max v_min v_max Lvals) ;;
         let trans := (known junk m, fs) in
         memo! of_prog (if 0 <? fit_rat then fit_rates trans Lvals else pret tt) ;;
         memo! of_prog (Show_Rats flt trans (Some (g_rat_lst s)) (Some (g_rat_num s))) ;;
         memo! of_prog (Show_Amps flt trans (Some (g_amp_lst s)) (Some (g_amp_num s))) ;;
         of_prog (pret (Some trans))
       else of_prog (pret None)) ;;
    of_prog (pret (eigen_vals, trans, Lvals)).

  (** What the user sees, the settings and the tables left by a call. *)
  Definition stepM (e : event) (s : settings) (t : memo) : observed * settings * memo :=
    match e with
    | Fit fe fr h a l n1 n2 v1 v2 L1 L2 =>
        let '(r, s', t', o) := ACM_ScaleOrAdaptM h a l n1 n2 v1 v2 fe fr L1 L2 s t in (seen Some (r, s', o), t')
    | _ => (step flt (fun _ _ _ _ _ _ _ _ _ _ => Raise TypeError) eigh inv junk e s, t) (* no matrix is asked for *)
    end.

  Fixpoint sessionM (es : list event) (s : settings) (t : memo) : list observed * settings * memo :=
    match es with
    | [] => ([], s, t)
    | e :: es' =>
        let '(o, s1, t1) := stepM e s t in
        let '(os, s2, t2) := sessionM es' s1 t1 in (o :: os, s2, t2)
    end.
End Driver.
