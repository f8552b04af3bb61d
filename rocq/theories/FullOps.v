(** Model of src/acmpy/full_operators.py:230-1381: matrices of operators on the
    truncated full space, and the memo tables of the momentum operators. *)

From Coq Require Import Reals.
From Verif Require Import PyBase Compat Matrix Spherical FullLabels RadialOps Operators.
Open Scope Z_scope.

(** [for x in l: s = body(x, s)] with an exception leaving the loop. *)
Fixpoint for_ {X S} (l : list X) (body : X -> S -> res S) (s : S) : res S :=
  match l with
  | [] => Ok s
  | x :: l' =>
      let* s' := body x s in
      for_ l' body s'
  end.

(** [l[i]] for 0 <= i. *)
Definition label_at (l : list label) (i : Z) : res label :=
  match nth_error l (Z.to_nat i) with Some x => Ok x | None => Raise IndexError end.

(** [np.zeros((d, d))]. *)
Definition zeros (d : Z) : mat R := mkMat d d (fun _ _ => 0%R).

(** A set of arguments shared by the functions below. *)
Record xargs := mkXA {
  xa_anorm : R; xa_lambda_base : R;
  xa_nu_min : Z; xa_nu_max : Z; xa_v_min : Z; xa_v_max : Z; xa_L_min : Z; xa_L_max : Z }.

(** The three validations at the start of each function. *)
Definition xa_check (a : xargs) : res unit :=
  check require_nonnegint_range (xa_nu_min a) (xa_nu_max a) ;;
  check require_nonnegint_range (xa_v_min a) (xa_v_max a) ;;
  require_nonnegint_range (xa_L_min a) (xa_L_max a).

(** Radial linear combinations: coefficient and word. *)
Definition radial_lc : Type := list (R * list rsym).

Section FullOps.
  (** [RepRadial_Prod_rem(ops, anorm, lambda, lambda_var, nu_min, nu_max,
      nu_lap)] ([RepRadial_Prod_common] of RadialOps.v; its memo table is keyed
      by all its arguments and is not modelled). *)
  Variable RP : list rsym -> R -> R -> Z -> Z -> Z -> Z -> res (mat R).
  (** [CG_SO5r3]. *)
  Variable CG : Z -> Z -> Z -> Z -> Z -> Z -> Z -> Z -> Z -> res R.

  (** radial_space.py:2106-2124 [RepRadial_LC_common] (and 2155-2161
      [RepRadial_LC_rem], whose memo table is keyed by all arguments). *)
  Definition RepRadial_LC (rlc : radial_lc) (anorm lambdaa : R)
      (lambda_var nu_min nu_max nu_lap : Z) : res (mat R) :=
    match rlc with
    | [] => Ok (zeros (nu_max - nu_min + 1))
    | (c, op) :: rest =>
        let* M := RP op anorm lambdaa lambda_var nu_min nu_max nu_lap in
        for_ rest (fun (t : R * list rsym) acc =>
          let* N := RP (snd t) anorm lambdaa lambda_var nu_min nu_max nu_lap in
          Ok (madd acc (mscale (fst t) N))) (mscale c M)
    end.

  Section Lambda.
    (** The function in force, [glb_lam_fun] ([ACM_eval_lambda_fun]). *)
    Variable lam : Z -> res Z.

    (** full_operators.py:612-655 [RepXspace_Twin]; the assignment
        [g.glb_nu_lap = 0] is read only here. *)
    Definition RepXspace_Twin (rad_ops : list rsym) (sph_ops : list osym) (a : xargs)
      : res (mat R) :=
      check xa_check a ;;
      let* sph_dim := dimSO5r3_rngVvarL (xa_v_min a) (xa_v_max a) (xa_L_min a) (Some (xa_L_max a)) in
      let* sph_labels := lbsSO5r3_rngVvarL (xa_v_min a) (xa_v_max a) (xa_L_min a) (Some (xa_L_max a)) in
      let ys := map YSym sph_ops in
      let* sph_Mat0 := RepSO5r3_Prod CG ys (xa_v_min a) (xa_v_max a) (xa_L_min a) (xa_L_max a) in
      let sph_Mat := mscale (powerRZ Convert_red (NumSO5r3_Prod ys)) sph_Mat0 in
      let rad_dim := dimRadial (xa_nu_min a) (xa_nu_max a) in
      for_ (py_range 1 (sph_dim + 1)) (fun j2 D =>
        let jdisp := (j2 - 1) * rad_dim in
        let* (v_j, _, _) := label_at sph_labels (j2 - 1) in
        let* lambda_disp_init := lam v_j in
        for_ (py_range 1 (sph_dim + 1)) (fun i2 D =>
          let idisp := (i2 - 1) * rad_dim in
          let* (v_i, _, _) := label_at sph_labels (i2 - 1) in
          let* lambda_disp_fin := lam v_i in
          let sph_ME := ent sph_Mat (i2 - 1) (j2 - 1) in
          if Req_EM_T sph_ME 0 then Ok D
          else
            let* rad_Mat := RP rad_ops (xa_anorm a) (xa_lambda_base a + IZR lambda_disp_init)
                              (lambda_disp_fin - lambda_disp_init) (xa_nu_min a) (xa_nu_max a) 0 in
            slice_set D idisp (idisp + rad_dim) jdisp (jdisp + rad_dim) (mscale sph_ME rad_Mat)) D)
        (zeros (sph_dim * rad_dim)).

    (** full_operators.py:769-826 [RepXspace_Pi] without its memo table. *)
    Definition RepXspace_Pi (a : xargs) : res (mat R) :=
      check xa_check a ;;
      let rad_dim := dimRadial (xa_nu_min a) (xa_nu_max a) in
      let* sph_dim := dimSO5r3_rngVvarL (xa_v_min a) (xa_v_max a) (xa_L_min a) (Some (xa_L_max a)) in
      let* sph_labels := lbsSO5r3_rngVvarL (xa_v_min a) (xa_v_max a) (xa_L_min a) (Some (xa_L_max a)) in
      check py_assert (sph_dim =? zlen sph_labels) ;;
      let LC rlc lambdaa var := RepRadial_LC rlc (xa_anorm a) lambdaa var (xa_nu_min a) (xa_nu_max a) 0 in
      for_ (py_range 1 (sph_dim + 1)) (fun j2 D =>
        let* (v_init, al_init, L_init) := label_at sph_labels (j2 - 1) in
        let jdisp := (j2 - 1) * rad_dim in
        let* lambda_disp_init := lam v_init in
        for_ (py_range 1 (sph_dim + 1)) (fun i2 D =>
          let* (v_fin, al_fin, L_fin) := label_at sph_labels (i2 - 1) in
          if (2 <? L_fin - L_init) || (L_fin - L_init <? -2) then Ok D
          else
            let v_chg := v_fin - v_init in
            let idisp := (i2 - 1) * rad_dim in
            let* lambda_disp_fin := lam v_fin in
            let lambdaa := (xa_lambda_base a + IZR lambda_disp_init)%R in
            let var := lambda_disp_fin - lambda_disp_init in
            let store rad_Mat :=
              let* CG2 := CG v_init al_init L_init 1 1 2 v_fin al_fin L_fin in
              slice_set D idisp (idisp + rad_dim) jdisp (jdisp + rad_dim) (mscale CG2 rad_Mat) in
            if v_chg =? 1 then
              let* M := LC [(1%R, [Radial_Db]); (IZR (- v_init - 2), [Radial_bm])] lambdaa var in
              let* q := Qred_p1 v_init in let* c := to_float q in
              store (mscale c M)
            else if v_chg =? -1 then
              let* M := LC [(1%R, [Radial_Db]); (IZR (v_init + 1), [Radial_bm])] lambdaa var in
              let* q := Qred_m1 v_init in let* c := to_float q in
              store (mscale c M)
            else Ok D) D)
        (zeros (sph_dim * rad_dim)).

    (** full_operators.py:970-1050 [RepXspace_PiPi] without its memo table. *)
    Definition RepXspace_PiPi (PiPi_L : Z) (a : xargs) : res (mat R) :=
      check require_nonnegint PiPi_L ;;
      check xa_check a ;;
      let rad_dim := dimRadial (xa_nu_min a) (xa_nu_max a) in
      let* sph_dim := dimSO5r3_rngVvarL (xa_v_min a) (xa_v_max a) (xa_L_min a) (Some (xa_L_max a)) in
      let* sph_labels := lbsSO5r3_rngVvarL (xa_v_min a) (xa_v_max a) (xa_L_min a) (Some (xa_L_max a)) in
      let LC rlc lambdaa var := RepRadial_LC rlc (xa_anorm a) lambdaa var (xa_nu_min a) (xa_nu_max a) 0 in
      for_ (py_range 1 (sph_dim + 1)) (fun j2 D =>
        let* (v_init, al_init, L_init) := label_at sph_labels (j2 - 1) in
        let jdisp := (j2 - 1) * rad_dim in
        let* lambda_disp_init := lam v_init in
        for_ (py_range 1 (sph_dim + 1)) (fun i2 D =>
          let* (v_fin, al_fin, L_fin) := label_at sph_labels (i2 - 1) in
          if (PiPi_L <? L_fin - L_init) || (L_fin - L_init <? - PiPi_L) then Ok D
          else
            let v_chg := v_fin - v_init in
            let idisp := (i2 - 1) * rad_dim in
            let* lambda_disp_fin := lam v_fin in
            let lambdaa := (xa_lambda_base a + IZR lambda_disp_init)%R in
            let var := lambda_disp_fin - lambda_disp_init in
            let store rad_Mat :=
              let* CG2 := CG v_init al_init L_init 2 1 PiPi_L v_fin al_fin L_fin in
              let* D' := slice_set D idisp (idisp + rad_dim) jdisp (jdisp + rad_dim) (mscale CG2 rad_Mat) in
              if PiPi_L =? 2 then Ok (mscale (-1) D') else Ok D' in
            if v_chg =? 2 then
              let* M := LC [(1%R, [Radial_D2b]); (IZR ((v_init + 2) * (v_init + 4)), [Radial_bm2]);
                            (IZR (-2 * v_init - 5), [Radial_bm2; Radial_bDb])] lambdaa var in
              let* q := QxQred_p2 v_init in let* c := to_float q in
              store (mscale (- c) M)
            else if v_chg =? -2 then
              let* M := LC [(1%R, [Radial_D2b]); (IZR ((v_init - 1) * (v_init + 1)), [Radial_bm2]);
                            (IZR (2 * v_init + 1), [Radial_bm2; Radial_bDb])] lambdaa var in
              let* q := QxQred_m2 v_init in let* c := to_float q in
              store (mscale (- c) M)
            else if v_chg =? 0 then
              let* M := LC [(1%R, [Radial_D2b]); (IZR (- (v_init + 1) * (v_init + 2)), [Radial_bm2])]
                           lambdaa var in
              let* q := QxQred_0 v_init in let* c := to_float q in
              store (mscale (- c) M)
            else Ok D) D)
        (zeros (sph_dim * rad_dim)).

    (** full_operators.py:1368-1381 [QixQxQred]: a quotient whose denominator is
        a float raises if it is zero ([float / 0.0]); not reached with SymPy
        numerators, where the result is [zoo] or [nan] and [float()] raises
        TypeError or gives nan: here TypeError in both cases. *)
    Definition QixQxQred (v_i v_f v_int : Z) : res (option R) :=
      check require_nonnegint v_i ;;
      check require_nonnegint v_f ;;
      check require_nonnegint v_int ;;
      let L_i := 2 * Z.min v_i v_f in
      let* mediates := lbsSO5r3_rngL v_int (L_i - 2) (L_i + 2) in
      let* m1 := ME_SO5red v_f 1 v_int in
      let* m2 := ME_SO5red v_int 2 v_i in
      let* terms := mapM (fun s : label =>
        let '(_, al, L) := s in
        let* c1 := CG v_int al L 1 1 2 v_f 1 L_i in
        let* c2 := CG v_i 1 L_i 2 1 2 v_int al L in
        let* d := dimSO3 L in
        Ok (c1 * c2 * sqrt (IZR d) * powerRZ (-1) L)%R) mediates in
      let* c := CG v_i 1 L_i 3 1 0 v_f 1 L_i in
      let* d := dimSO3 L_i in
      Ok (match m1, m2 with
          | Some x1, Some x2 =>
              if Req_EM_T c 0 then None
              else Some (- x1 * x2 * sqrt (2 / 7) / 15 * fold_right Rplus 0 terms / c / sqrt (5 * IZR d))%R
          | _, _ => None
          end).

    (** full_operators.py:1218-1324 [RepXspace_PiqPi] without its memo table.
        [S.one] (line 1277) is not an attribute of SymPy's registry [S]. *)
    Definition RepXspace_PiqPi (a : xargs) : res (mat R) :=
      check xa_check a ;;
      let rad_dim := dimRadial (xa_nu_min a) (xa_nu_max a) in
      let* sph_dim := dimSO5r3_rngVvarL (xa_v_min a) (xa_v_max a) (xa_L_min a) (Some (xa_L_max a)) in
      let* sph_labels := lbsSO5r3_rngVvarL (xa_v_min a) (xa_v_max a) (xa_L_min a) (Some (xa_L_max a)) in
      let LC rlc lambdaa var lap :=
        RepRadial_LC rlc (xa_anorm a) lambdaa var (xa_nu_min a) (xa_nu_max a) lap in
      for_ (py_range 1 (sph_dim + 1)) (fun j2 D =>
        let* (v_init, al_init, L_init) := label_at sph_labels (j2 - 1) in
        let jdisp := (j2 - 1) * rad_dim in
        let* lambda_disp_init := lam v_init in
        for_ (py_range 1 (sph_dim + 1)) (fun i2 D =>
          let* (v_fin, al_fin, L_fin) := label_at sph_labels (i2 - 1) in
          if negb (L_fin =? L_init) then Ok D
          else
            let v_chg := v_fin - v_init in
            let idisp := (i2 - 1) * rad_dim in
            let* lambda_disp_fin := lam v_fin in
            let lambdaa := (xa_lambda_base a + IZR lambda_disp_init)%R in
            let var := lambda_disp_fin - lambda_disp_init in
            let store rad_Mat :=
              let* CG2 := CG v_init al_init L_init 3 1 0 v_fin al_fin L_fin in
              slice_set D idisp (idisp + rad_dim) jdisp (jdisp + rad_dim) (mscale CG2 rad_Mat) in
            if v_chg =? 3 then
              let* M := LC [(1%R, [Radial_b; Radial_D2b]); (IZR ((v_init + 2) * (v_init + 4)), [Radial_bm]);
                            (IZR (-2 * v_init - 5), [Radial_Db])] lambdaa var 1 in
              let* q := QxQxQred_p3 v_init in let* c := to_float q in
              store (mscale c M)
            else if v_chg =? -3 then
              let* M := LC [(1%R, [Radial_b; Radial_D2b]); (IZR ((v_init - 1) * (v_init + 1)), [Radial_bm]);
                            (IZR (2 * v_init + 1), [Radial_Db])] lambdaa var 1 in
              let* q := QxQxQred_m3 v_init in let* c := to_float q in
              store (mscale c M)
            else if v_chg =? 1 then Raise AttributeError
            else if v_chg =? -1 then
              let* M := LC [(1%R, [Radial_b; Radial_D2b]); (IZR (- (v_init + 1) * (v_init + 2)), [Radial_bm])]
                           lambdaa var 0 in
              let* M2 := LC [(1%R, [Radial_Db]); (IZR (v_init + 1), [Radial_bm])] lambdaa var 0 in
              let* q := QxQxQred_m1 v_init in let* c := to_float q in
              let* q2 := QixQxQred v_init v_fin (v_fin - 1) in let* c2 := to_float q2 in
              store (madd (mscale c M) (mscale (IZR (- (2 * v_init)) * c2) M2))
            else Ok D) D)
        (zeros (sph_dim * rad_dim)).

    (** The memoised functions, by name. *)
    Inductive xname : Set := NPi | NPiPi (L : Z) | NPiqPi.
    Definition xcompute (n : xname) (a : xargs) : res (mat R) :=
      match n with
      | NPi => RepXspace_Pi a
      | NPiPi L => RepXspace_PiPi L a
      | NPiqPi => RepXspace_PiqPi a
      end.
  End Lambda.

  (** ** Memo tables *)

  (** The state observed by the functions: the lambda function and the entries
      of the memo tables of [RepXspace_Pi], [RepXspace_PiPi], [RepXspace_PiqPi]
      (one list, keyed by the function and its arguments). *)
  Definition memo : Type := list (xname * xargs * mat R).
  Record xst := mkX { x_lam : Z -> res Z; x_memo : memo }.

  Definition xname_eqb (m n : xname) : bool :=
    match m, n with
    | NPi, NPi => true
    | NPiPi a, NPiPi b => a =? b
    | NPiqPi, NPiqPi => true
    | _, _ => false
    end.
  Definition Reqb (x y : R) : bool := if Req_EM_T x y then true else false.
  Definition xargs_eqb (a b : xargs) : bool :=
    Reqb (xa_anorm a) (xa_anorm b) && Reqb (xa_lambda_base a) (xa_lambda_base b)
    && (xa_nu_min a =? xa_nu_min b) && (xa_nu_max a =? xa_nu_max b)
    && (xa_v_min a =? xa_v_min b) && (xa_v_max a =? xa_v_max b)
    && (xa_L_min a =? xa_L_min b) && (xa_L_max a =? xa_L_max b).

  Fixpoint memo_get (n : xname) (a : xargs) (t : memo) : option (mat R) :=
    match t with
    | [] => None
    | (n', a', m) :: t' => if xname_eqb n n' && xargs_eqb a a' then Some m else memo_get n a t'
    end.

  (** Computations that read and update the state; the state reached survives an
      exception. *)
  Definition M (A : Type) : Type := xst -> res A * xst.
  Definition retM {A} (r : res A) : M A := fun s => (r, s).
  Definition bindM {A B} (m : M A) (f : A -> M B) : M B :=
    fun s => match m s with (Ok a, s') => f a s' | (Raise e, s') => (Raise e, s') end.
  (** Read the lambda function. *)
  Definition withlam {A} (f : (Z -> res Z) -> res A) : M A := fun s => (f (x_lam s), s).

  (** functools.cache around [xcompute]: a raised exception stores nothing. *)
  Definition call (n : xname) (a : xargs) : M (mat R) := fun s =>
    match memo_get n a (x_memo s) with
    | Some m => (Ok m, s)
    | None =>
        match xcompute (x_lam s) n a with
        | Ok m => (Ok m, mkX (x_lam s) ((n, a, m) :: x_memo s))
        | Raise e => (Raise e, s)
        end
    end.

  (** [run_Mat] after multiplying in another matrix; [None] is
      [up_running == 0]. *)
  Definition times (run : option (mat R)) (X : mat R) : res (option (mat R)) :=
    match run with
    | None => Ok (Some X)
    | Some P => let* Q := matmul P X in Ok (Some Q)
    end.

  Definition nonempty {A} (l : list A) : bool := match l with [] => false | _ => true end.

  (** full_operators.py:422-475: the loop over the operators. *)
  Fixpoint prod_loop (a : xargs) (ops : list osym) (run : option (mat R))
      (nu_ops : list rsym) (sph_ops : list osym) : M (option (mat R) * list rsym * list osym) :=
    match ops with
    | [] => retM (Ok (run, nu_ops, sph_ops))
    | op :: ops' =>
        let full (n : xname) :=
          bindM (if nonempty nu_ops || nonempty sph_ops
                 then bindM (withlam (fun lam => RepXspace_Twin lam nu_ops sph_ops a))
                        (fun T => retM (times run T))
                 else retM (Ok run)) (fun run' =>
          bindM (call n a) (fun X =>
          bindM (retM (times run' X)) (fun run'' => prod_loop a ops' run'' [] []))) in
        match op with
        | ORad (Radial_other _) =>
            bindM (if nonempty nu_ops || nonempty sph_ops
                   then bindM (withlam (fun lam => RepXspace_Twin lam nu_ops sph_ops a))
                          (fun T => retM (times run T))
                   else retM (Ok run)) (fun _ => retM (Raise ValueError))
        | ORad r => prod_loop a ops' run (nu_ops ++ [r]) sph_ops
        | OSph _ | SpDiag_sqLdim | SpDiag_sqLdiv => prod_loop a ops' run nu_ops (sph_ops ++ [op])
        | Xspace_PiqPi => full NPiqPi
        | Xspace_PiPi2 => full (NPiPi 2)
        | Xspace_PiPi4 => full (NPiPi 4)
        | Xspace_Pi => full NPi
        end
    end.

  (** full_operators.py:402-497 [RepXspace_Prod].  The test of line 477 compares
      tuples with lists and is always true, so lines 491-495 are not reached. *)
  Definition RepXspace_Prod (x_ops : list osym) (a : xargs) : M (mat R) :=
    bindM (retM (xa_check a)) (fun _ =>
    bindM (prod_loop a x_ops None [] []) (fun st =>
      let '(run, nu_ops, sph_ops) := st in
      bindM (withlam (fun lam => RepXspace_Twin lam nu_ops sph_ops a)) (fun T =>
      bindM (retM (times run T)) (fun run' =>
      match run' with
      | Some P => retM (Ok P)
      | None => retM (Raise AssertionError)
      end)))).

  (** full_operators.py:269-288 [RepXspace_Term]. *)
  Definition RepXspace_Term (t : OperatorTerm) (Xlabels : list xlabel) (a : xargs) : M (mat R) :=
    bindM (RepXspace_Prod (snd t) a) (fun Rmat =>
    match fst t with
    | CNum c => retM (Ok (mscale c Rmat))
    | CSym f =>
        let coeffs := map (fun x : xlabel => let '(nu, (v, al, L)) := x in f nu v al L) Xlabels in
        if zlen coeffs =? ncols Rmat then
          retM (Ok (mkMat (nrows Rmat) (ncols Rmat)
                     (fun i j => (nth (Z.to_nat j) coeffs 0 * ent Rmat i j)%R)))
        else retM (Raise ValueError)
    end).

  Fixpoint terms_loop (ts : list OperatorTerm) (Xlabels : list xlabel) (a : xargs) (acc : mat R) : M (mat R) :=
    match ts with
    | [] => retM (Ok acc)
    | t :: ts' =>
        bindM (RepXspace_Term t Xlabels a) (fun N => terms_loop ts' Xlabels a (madd acc N))
    end.

  (** full_operators.py:249-264: clearing the memo tables. *)
  Definition clear : M unit := fun s => (Ok tt, mkX (x_lam s) []).

  (** full_operators.py:230-266 [RepXspace]. *)
  Definition RepXspace (x_oplc : OperatorSum) (anorm lambda_base : R)
      (nu_min nu_max v_min v_max L : Z) (L_max : option Z) : M (mat R) :=
    let L_max := match L_max with None => L | Some l => l end in
    let a := mkXA anorm lambda_base nu_min nu_max v_min v_max L L_max in
    bindM (retM (xa_check a)) (fun _ =>
    bindM (match x_oplc with
           | [] =>
               retM (let* d := dimXspace nu_min nu_max v_min v_max L (Some L_max) in Ok (zeros d))
           | t :: ts =>
               bindM (retM (lbsXspace nu_min nu_max v_min v_max L (Some L_max))) (fun Xlabels =>
               bindM (RepXspace_Term t Xlabels a) (fun M0 => terms_loop ts Xlabels a M0))
           end) (fun Rmat =>
    bindM clear (fun _ => retM (Ok Rmat)))).
End FullOps.
