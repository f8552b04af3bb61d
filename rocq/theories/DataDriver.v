(** Model of the drivers of src/acmpy/full_space.py together with the data files
    and everything a process remembers: as Display.v, FullSpace.v and
    Examples.v, but [RepXspace] is the one of DataMemo.v, which reads files and
    reads and updates the tables. *)

From Coq Require Import String Reals.
From Verif Require Import PyBase Compat Text Format Operators Spherical FullLabels Matrix RadialOps FullOps FullSpace Settings Display Examples CG DataMemo.
Open Scope Z_scope.

Section Dig.
  Variable RepX : Z -> option Z -> code (mat R).
  Variable Eig : mat R -> res (list R * mat R).
  Variable tame : bool.
  Variables nu_min nu_max v_min v_max : Z.

  (** full_space.py:169-179: loop of the tame branch. *)
  Fixpoint dig_tameC (Ls : list Z) (acc : dig_out) : code dig_out :=
    match Ls with
    | [] => Done (Ok acc)
    | LL :: Ls' =>
        py* sph_dim <- Done (dimSO5r3_rngV v_min v_max LL) ;;
        if 0 <? sph_dim then
          py* L_matrix <- RepX LL None ;;
          py* (vals, bases) <- Done (Eig L_matrix) ;;
          let '(evs, ebs, Lvals) := acc in
          dig_tameC Ls' (evs ++ [vals], ebs ++ [bases], Lvals ++ [LL])
        else dig_tameC Ls' acc
    end.

  (** full_space.py:141-197 [DigXspace]. *)
  Definition DigXspaceC (L_min : Z) (L_max : option Z) : code dig_out :=
    let LLM := match L_max with None => L_min | Some l => l end in
    py* _ <- Done (require_nonnegint_range nu_min nu_max) ;;
    py* _ <- Done (require_nonnegint_range v_min v_max) ;;
    py* _ <- Done (require_nonnegint_range L_min LLM) ;;
    if tame then dig_tameC (py_range L_min (LLM + 1)) ([], [], [])
    else
      py* rep <- RepX L_min (Some LLM) ;;
      Done (dig_full Eig v_min v_max rep (dimRadial nu_min nu_max) (py_range L_min (LLM + 1)) 1 ([], [], [])).
End Dig.

(** full_space.py:356-375 [AmpXspeig]. *)
Definition AmpXspeigC (RepX : Z -> Z -> code (mat R)) (inv : mat R -> res (mat R))
  (eigen_bases : list (mat R)) (nu_min nu_max v_min v_max : Z) (Lvals : list Z)
  : code (mat (option R) * LBlockFullSpace) :=
  py* _ <- Done (validate_Lvals Lvals) ;;
  py* fs <- Done (LBlockFullSpace_init nu_min nu_max v_min v_max Lvals) ;;
  py* (L_min, L_max) <- Done (head_last Lvals) ;;
  py* tran_mat <- RepX L_min L_max ;;
  Done (let* tran := LBlockNDFloatArray_init tran_mat in
        let* result := LBlockNDFloatArray_init (np_empty (nrows tran_mat) (ncols tran_mat)) in
        let* eigen_invs := mapM inv eigen_bases in
        let* result := amp_rows fs tran (combine eigen_bases Lvals) (combine eigen_invs Lvals) result in
        Ok (result, fs)).

(** ** Runs

    The drivers for any way of running [code]: [St] is what a process
    remembers besides the settings, [exec] runs a piece of code. *)
Section Driver.
  Variable flt : text -> R -> text.
  Variable RP : list rsym -> R -> R -> Z -> Z -> Z -> Z -> res (mat R).
  Variable eigh : mat R -> res (list R * mat R).
  Variable inv : mat R -> res (mat R).
  Variable junk : Z -> Z -> R.

  Section Exec.
    Context {St : Type}.
    Variable exec : forall A, code A -> St -> res A * St.

    Definition dprog (A : Type) : Type := settings -> St -> res A * settings * St * list text.
    Definition plainly {A} (p : prog A) : dprog A := fun s t => let '(r, s', o) := p s in (r, s', t, o).
    Definition execute {A} (c : code A) : dprog A := fun s t => let '(r, t') := exec A c t in (r, s, t', []).
    Definition dbind {A B} (m : dprog A) (f : A -> dprog B) : dprog B := fun s t =>
      let '(r, s1, t1, o1) := m s t in
      match r with
      | Ok a => let '(r2, s2, t2, o2) := f a s1 t1 in (r2, s2, t2, o1 ++ o2)
      | Raise e => (Raise e, s1, t1, o1)
      end.
  End Exec.

  Notation "'data*' x '<-' m ';;' k" := (dbind m (fun x => k))
    (at level 200, x pattern, m at level 100, k at level 200, right associativity).
  Notation "'data!' m ';;' k" := (dbind m (fun _ => k))
    (at level 200, m at level 100, k at level 200, right associativity).

  (** full_space.py:1264-1352 [ACM_ScaleOrAdapt]. *)
  Definition ACM_ScaleOrAdaptC {St} (exec : forall A, code A -> St -> res A * St)
    (ham_op : OperatorSum) (anorm lambda_base : R) (nu_min nu_max v_min v_max : Z)
    (fit_eig fit_rat : Z) (L_min : Z) (L_max : option Z) : dprog (list (list R) * option block_array * list Z) :=
    let RepX s op := RepXspaceC RP (g_lam_fun s) op anorm lambda_base nu_min nu_max v_min v_max in
    let reference := check_reference nu_min nu_max v_min v_max in
    data! plainly (praise (require_nonnegint fit_eig)) ;;
    data! plainly (praise (require_nonnegint fit_rat)) ;;
    data! plainly (praise (require_nonnegint_range nu_min nu_max)) ;;
    data! plainly (praise (require_nonnegint_range v_min v_max)) ;;
    let L_mx := match L_max with None => L_min | Some l => l end in
    data! plainly (praise (require_nonnegint_range L_min L_mx)) ;;
    data* s <- plainly pget ;;
    data! plainly (if (0 <? fit_eig) && (0 <? g_eig_num s)
                   then praise (reference (g_eig_L s) (g_eig_idx s) L_min L_mx) else pret tt) ;;
    data! plainly (if (0 <? fit_rat) && (0 <? zlen (g_rat_lst s)) then
                     run! praise (reference (g_rat_L1 s) (g_rat_1dx s) L_min L_mx) ;;
                     praise (reference (g_rat_L2 s) (g_rat_2dx s) L_min L_mx)
                   else pret tt) ;;
    data* (eigen_vals, eigen_bases, Lvals) <-
      execute exec (DigXspaceC (RepX s ham_op) (Eigenfiddle eigh) (Op_Tame ham_op) nu_min nu_max v_min v_max L_min L_max) ;;
    data! plainly (if 0 <? g_eig_num s then
                     run! (if 0 <? fit_eig then fit_eigenvalues eigen_vals Lvals else pret tt) ;;
                     run! Show_Eigs flt eigen_vals Lvals (Some (g_eig_num s)) None None ;; pret tt
                   else pret tt) ;;
    data* trans <-
      (if (0 <? zlen (g_rat_lst s)) || (0 <? zlen (g_amp_lst s)) then
         data* (m, fs) <- execute exec (AmpXspeigC (fun lo hi => RepX s (g_rat_TRop s) lo (Some hi))
                                          inv eigen_bases nu_min nu_max v_min v_max Lvals) ;;
         let trans := (known junk m, fs) in
         data! plainly (if 0 <? fit_rat then fit_rates trans Lvals else pret tt) ;;
         data! plainly (Show_Rats flt trans (Some (g_rat_lst s)) (Some (g_rat_num s))) ;;
         data! plainly (Show_Amps flt trans (Some (g_amp_lst s)) (Some (g_amp_num s))) ;;
         plainly (pret (Some trans))
       else plainly (pret None)) ;;
    plainly (pret (eigen_vals, trans, Lvals)).

  (** ** Sessions

      What happens to a process: the user calls a procedure of globals.py, a
      driver or a display procedure ([Do], see Examples.v), asks for a matrix
      or a coefficient, or sets the data directory; the files change. *)
  Inductive happening : Type :=
  | Do (e : Examples.event)
  | AskMatrix (c : call)
  | AskCoefficient (v1 a1 L1 v2 a2 L2 v3 a3 L3 : Z)
  | UseDirectory (d : text)
  | FilesBecome (F : disk).

  (** What the user sees of it. *)
  Inductive view : Type :=
  | Silent
  | Saw (o : observed)
  | GotMatrix (r : res (mat R))
  | GotNumber (r : res R).

  Section Step.
    Context {St : Type}.
    Variable exec : disk -> forall A, code A -> St -> res A * St.
    Variable use_directory : text -> St -> St.

    Definition stepC (h : happening) (w : settings * disk * St) : view * (settings * disk * St) :=
      let '(s, F, st) := w in
      match h with
      | Do (Fit fe fr op a l n1 n2 v1 v2 L1 L2) =>
          let '(r, s', st', o) := ACM_ScaleOrAdaptC (exec F) op a l n1 n2 v1 v2 fe fr L1 L2 s st in
          let '(ob, s'') := seen Some (r, s', o) in (Saw ob, (s'', F, st'))
      | Do e => (* no matrix is asked for *)
          let '(ob, s') := Examples.step flt (fun _ _ _ _ _ _ _ _ _ _ => Raise TypeError) eigh inv junk e s in
          (Saw ob, (s', F, st))
      | AskMatrix c => let '(r, st') := exec F _ (code_of RP (g_lam_fun s) c) st in (GotMatrix r, (s, F, st'))
      | AskCoefficient v1 a1 L1 v2 a2 L2 v3 a3 L3 =>
          let '(r, st') := exec F _ (CGC v1 a1 L1 v2 a2 L2 v3 a3 L3) st in (GotNumber r, (s, F, st'))
      | UseDirectory d => (Silent, (s, F, use_directory d st))
      | FilesBecome F' => (Silent, (s, F', st))
      end.

    Fixpoint sessionC (hs : list happening) (w : settings * disk * St) : list view * (settings * disk * St) :=
      match hs with
      | [] => ([], w)
      | h :: hs' =>
          let '(o, w1) := stepC h w in
          let '(os, w2) := sessionC hs' w1 in (o :: os, w2)
      end.
  End Step.

  Variable home : text.

  (** A Python process: it keeps the coefficients it has read and the memo
      tables of matrices. *)
  Definition in_process (F : disk) A (c : code A) (st : cg_state * tables) : res A * (cg_state * tables) :=
    let '(r, cg, t) := run home c F (fst st) (snd st) in (r, (cg, t)).
  Definition process_directory (d : text) (st : cg_state * tables) : cg_state * tables :=
    (set_base_directory d (fst st), snd st).
  Definition process := sessionC in_process process_directory.
  Definition process_step := stepC in_process process_directory.
  Definition new_process (F : disk) : settings * disk * (cg_state * tables) := (imported, F, (cg_init, [])).

  (** One that keeps the coefficients only. *)
  Definition without_tables (F : disk) A (c : code A) (cg : cg_state) : res A * cg_state := run_plain home c F cg.
  Definition tableless := sessionC without_tables set_base_directory.
  Definition tableless_step := stepC without_tables set_base_directory.
  Definition new_tableless (F : disk) : settings * disk * cg_state := (imported, F, cg_init).
End Driver.
