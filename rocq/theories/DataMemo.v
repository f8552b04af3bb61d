(** Model of the functions of internal_operators.py and full_operators.py that
    use coefficients from the data files, with everything a Python process
    remembers about them: the dictionary [CG_coeffs] of so5_so3_cg.py (CG.v)
    and the memo tables of [RepSO5_Y_rem], [RepSO5r3_Prod_rem],
    [RepXspace_Pi], [RepXspace_PiPi], [RepXspace_PiqPi].  Operators.v and
    FullOps.v model the same functions for coefficients that are given. *)

From Coq Require Import Reals.
From Verif Require Import PyBase Compat PyDict Text SO5Files Matrix Spherical FullLabels RadialOps Operators FullOps CG.
Open Scope Z_scope.

(** The calls that are remembered, with their arguments. *)
Inductive rkey : Type :=
| KHarmonic (v al L v_min v_max L_min L_max : Z)
| KProduct (ys : list ysop) (v_min v_max L_min L_max : Z)
| KFull (n : xname) (a : xargs).

Definition rkey_eq_dec (j k : rkey) : {j = k} + {j <> k}.
Proof.
  assert (forall x y : ysop, {x = y} + {x <> y}) by (repeat decide equality).
  assert (forall x y : xargs, {x = y} + {x <> y}) by (decide equality; (apply Z.eq_dec || apply Req_EM_T)).
  repeat decide equality.
Defined.

(** A piece of Python code, by what it does with the coefficients and the memo
    tables: it returns or raises; it calls [CG_SO5r3] and goes on with the
    number, unless that raised; it calls a function decorated by [@cache]
    (whose body is [c]) and goes on with the matrix; it clears memo tables. *)
Inductive code : Type -> Type :=
| Done {A} (r : res A) : code A
| Coefficient {A} (v1 a1 L1 v2 a2 L2 v3 a3 L3 : Z) (k : R -> code A) : code A
| Cached {A} (key : rkey) (c : code (mat R)) (k : mat R -> code A) : code A
| Clear {A} (which : rkey -> bool) (k : code A) : code A.

Fixpoint andthen {A B} (m : code A) : (A -> code B) -> code B :=
  match m in code A return (A -> code B) -> code B with
  | Done r => fun f => match r with Ok a => f a | Raise e => Done (Raise e) end
  | Coefficient v1 a1 L1 v2 a2 L2 v3 a3 L3 k => fun f =>
      Coefficient v1 a1 L1 v2 a2 L2 v3 a3 L3 (fun x => andthen (k x) f)
  | Cached key c k => fun f => Cached key c (fun x => andthen (k x) f)
  | Clear which k => fun f => Clear which (andthen k f)
  end.

Notation "'py*' x '<-' m ';;' k" := (andthen m (fun x => k))
  (at level 200, x pattern, m at level 100, k at level 200, right associativity).

(** List comprehensions and [for] loops. *)
Fixpoint mapC {X A} (f : X -> code A) (l : list X) : code (list A) :=
  match l with
  | [] => Done (Ok [])
  | x :: l' => py* a <- f x ;; py* as_ <- mapC f l' ;; Done (Ok (a :: as_))
  end.
Fixpoint forC {X S} (l : list X) (body : X -> S -> code S) (s : S) : code S :=
  match l with
  | [] => Done (Ok s)
  | x :: l' => py* s' <- body x s ;; forC l' body s'
  end.

(** A call of [CG_SO5r3]. *)
Definition CGC (v1 a1 L1 v2 a2 L2 v3 a3 L3 : Z) : code R :=
  Coefficient v1 a1 L1 v2 a2 L2 v3 a3 L3 (fun x => Done (Ok x)).

(** ** Running code *)

(** What [readdata_float] makes of the file at a path (see CG.v). *)
Definition disk : Type := text -> res (list R).
Definition tables : Type := list (rkey * mat R).

Section Run.
  Variable home : text.

  (** In a Python process: the coefficients come from [CG_coeffs] or the disk
      ([CG_SO5r3] of CG.v), a remembered matrix is returned without running
      the body, a body that returns is remembered, one that raises is not. *)
  Fixpoint run {A} (m : code A) (F : disk) (cg : cg_state) (t : tables) : res A * cg_state * tables :=
    match m with
    | Done r => (r, cg, t)
    | Coefficient v1 a1 L1 v2 a2 L2 v3 a3 L3 k =>
        let '(r, cg') := CG_SO5r3 F home cg v1 a1 L1 v2 a2 L2 v3 a3 L3 in
        match r with
        | Ok x => run (k x) F cg' t
        | Raise e => (Raise e, cg', t)
        end
    | Cached key c k =>
        match dict_get rkey_eq_dec t key with
        | Some M => run (k M) F cg t
        | None =>
            let '(r, cg', t') := run c F cg t in
            match r with
            | Ok M => run (k M) F cg' (dict_set rkey_eq_dec t' key M)
            | Raise e => (Raise e, cg', t')
            end
        end
    | Clear which k => run k F cg (filter (fun p => negb (which (fst p))) t)
    end.

  (** Without memo tables: every body is run. *)
  Fixpoint run_plain {A} (m : code A) (F : disk) (cg : cg_state) : res A * cg_state :=
    match m with
    | Done r => (r, cg)
    | Coefficient v1 a1 L1 v2 a2 L2 v3 a3 L3 k =>
        let '(r, cg') := CG_SO5r3 F home cg v1 a1 L1 v2 a2 L2 v3 a3 L3 in
        match r with
        | Ok x => run_plain (k x) F cg'
        | Raise e => (Raise e, cg')
        end
    | Cached key c k =>
        let '(r, cg') := run_plain c F cg in
        match r with
        | Ok M => run_plain (k M) F cg'
        | Raise e => (Raise e, cg')
        end
    | Clear which k => run_plain k F cg
    end.
End Run.

(** ** internal_operators.py *)

(** internal_operators.py:233-236 [ME_SO5r3]. *)
Definition ME_SO5r3C (v_f al_f L_f v al L v_i al_i L_i : Z) : code (option R) :=
  py* c <- CGC v_i al_i L_i v al L v_f al_f L_f ;;
  py* m <- Done (ME_SO5red v_f v v_i) ;;
  Done (Ok (match m with Some x => Some (c * x)%R | None => None end)).

(** internal_operators.py:279-283, the body of [RepSO5_Y_rem]. *)
Definition Y_body (v al L v_min v_max L_min L_max : Z) : code (mat R) :=
  py* states <- Done (lbsSO5r3_rngVvarL v_min v_max L_min (Some L_max)) ;;
  py* rows <-
    mapC (fun i : label =>
      let '(vf, af, Lf) := i in
      mapC (fun j : label =>
        let '(vi, ai, Li) := j in
        py* x <- ME_SO5r3C vf af Lf v al L vi ai Li ;;
        Done (to_float x)) states) states ;;
  Done (Ok (mat_of_rows (zlen states) rows)).

(** internal_operators.py:275-283 [RepSO5_Y_rem]. *)
Definition RepSO5_Y_rem (v al L v_min v_max L_min L_max : Z) : code (mat R) :=
  Cached (KHarmonic v al L v_min v_max L_min L_max) (Y_body v al L v_min v_max L_min L_max) (fun M => Done (Ok M)).

(** internal_operators.py:493-504: the matrix of one designator. *)
Definition ys_matC (y : ysop) (v_min v_max L_min L_max : Z) : code (mat R) :=
  match y with
  | YTriple v al L => RepSO5_Y_rem v al L v_min v_max L_min L_max
  | YSym (OSph h) =>
      let '(v, al, L) := SpHarm_Table h in RepSO5_Y_rem v al L v_min v_max L_min L_max
  | YSym SpDiag_sqLdim => Done (RepSO5_sqLdim v_min v_max L_min L_max)
  | YSym SpDiag_sqLdiv => Done (RepSO5_sqLdiv v_min v_max L_min L_max)
  | YSym _ => Done (Raise ValueError)
  end.

(** internal_operators.py:482-509 [RepSO5r3_Prod_wrk]. *)
Definition RepSO5r3_Prod_wrk (ys_op : list ysop) (v_min v_max L_min L_max : Z) : code (mat R) :=
  match ys_op with
  | [] =>
      py* d <- Done (dimSO5r3_rngVvarL v_min v_max L_min (Some L_max)) ;;
      Done (Ok (eye d))
  | y :: ys =>
      py* M0 <- ys_matC y v_min v_max L_min L_max ;;
      forC ys (fun y P =>
        py* M <- ys_matC y v_min v_max L_min L_max ;;
        Done (matmul P M)) M0
  end.

(** internal_operators.py:410-414 [RepSO5r3_Prod_rem]. *)
Definition RepSO5r3_Prod_rem (ys_op : list ysop) (v_min v_max L_min L_max : Z) : code (mat R) :=
  Cached (KProduct ys_op v_min v_max L_min L_max) (RepSO5r3_Prod_wrk ys_op v_min v_max L_min L_max) (fun M => Done (Ok M)).

Definition is_harmonic (k : rkey) : bool := match k with KHarmonic _ _ _ _ _ _ _ => true | _ => false end.

(** internal_operators.py:391-397 [RepSO5r3_Prod]. *)
Definition RepSO5r3_ProdC (ys_op : list ysop) (v_min v_max L_min L_max : Z) : code (mat R) :=
  py* rep <- RepSO5r3_Prod_wrk ys_op v_min v_max L_min L_max ;;
  Clear is_harmonic (Done (Ok rep)).

(** ** full_operators.py *)

Section FullOpsC.
  (** [RepRadial_Prod_rem] and the lambda function, as in FullOps.v. *)
  Variable RP : list rsym -> R -> R -> Z -> Z -> Z -> Z -> res (mat R).
  Variable lam : Z -> res Z.

  (** full_operators.py:612-655 [RepXspace_Twin]. *)
  Definition RepXspace_TwinC (rad_ops : list rsym) (sph_ops : list osym) (a : xargs) : code (mat R) :=
    py* _ <- Done (xa_check a) ;;
    py* sph_dim <- Done (dimSO5r3_rngVvarL (xa_v_min a) (xa_v_max a) (xa_L_min a) (Some (xa_L_max a))) ;;
    py* sph_labels <- Done (lbsSO5r3_rngVvarL (xa_v_min a) (xa_v_max a) (xa_L_min a) (Some (xa_L_max a))) ;;
    let ys := map YSym sph_ops in
    py* sph_Mat0 <- RepSO5r3_Prod_rem ys (xa_v_min a) (xa_v_max a) (xa_L_min a) (xa_L_max a) ;;
    let sph_Mat := mscale (powerRZ Convert_red (NumSO5r3_Prod ys)) sph_Mat0 in
    let rad_dim := dimRadial (xa_nu_min a) (xa_nu_max a) in
    Done (for_ (py_range 1 (sph_dim + 1)) (fun j2 D =>
      let jdisp := (j2 - 1) * rad_dim in
      let* (v_j, _, _) := label_at sph_labels (j2 - 1) in
      let* lambda_disp_init := lam v_j in
      for_ (py_range 1 (sph_dim + 1)) (fun i2 D =>
        let idisp := (i2 - 1) * rad_dim in
        let* (v_i, _, _) := label_at sph_labels (i2 - 1) in
        let* lambda_disp_fin := lam v_i in
        let sph_ME := ent sph_Mat (i2 - 1) (j2 - 1) in
        if Req_EM_T sph_ME 0 then Ok D
        else
          let* rad_Mat := RP rad_ops (xa_anorm a) (xa_lambda_base a + IZR lambda_disp_init)
                            (lambda_disp_fin - lambda_disp_init) (xa_nu_min a) (xa_nu_max a) 0 in
          slice_set D idisp (idisp + rad_dim) jdisp (jdisp + rad_dim) (mscale sph_ME rad_Mat)) D)
      (zeros (sph_dim * rad_dim))).

  (** full_operators.py:769-826 [RepXspace_Pi], the body. *)
  Definition Pi_body (a : xargs) : code (mat R) :=
    py* _ <- Done (xa_check a) ;;
    let rad_dim := dimRadial (xa_nu_min a) (xa_nu_max a) in
    py* sph_dim <- Done (dimSO5r3_rngVvarL (xa_v_min a) (xa_v_max a) (xa_L_min a) (Some (xa_L_max a))) ;;
    py* sph_labels <- Done (lbsSO5r3_rngVvarL (xa_v_min a) (xa_v_max a) (xa_L_min a) (Some (xa_L_max a))) ;;
    py* _ <- Done (py_assert (sph_dim =? zlen sph_labels)) ;;
    let LC rlc lambdaa var := Done (RepRadial_LC RP rlc (xa_anorm a) lambdaa var (xa_nu_min a) (xa_nu_max a) 0) in
    forC (py_range 1 (sph_dim + 1)) (fun j2 D =>
      py* (v_init, al_init, L_init) <- Done (label_at sph_labels (j2 - 1)) ;;
      let jdisp := (j2 - 1) * rad_dim in
      py* lambda_disp_init <- Done (lam v_init) ;;
      forC (py_range 1 (sph_dim + 1)) (fun i2 D =>
        py* (v_fin, al_fin, L_fin) <- Done (label_at sph_labels (i2 - 1)) ;;
        if (2 <? L_fin - L_init) || (L_fin - L_init <? -2) then Done (Ok D)
        else
          let v_chg := v_fin - v_init in
          let idisp := (i2 - 1) * rad_dim in
          py* lambda_disp_fin <- Done (lam v_fin) ;;
          let lambdaa := (xa_lambda_base a + IZR lambda_disp_init)%R in
          let var := lambda_disp_fin - lambda_disp_init in
          let store rad_Mat :=
            py* CG2 <- CGC v_init al_init L_init 1 1 2 v_fin al_fin L_fin ;;
            Done (slice_set D idisp (idisp + rad_dim) jdisp (jdisp + rad_dim) (mscale CG2 rad_Mat)) in
          if v_chg =? 1 then
            py* M <- LC [(1%R, [Radial_Db]); (IZR (- v_init - 2), [Radial_bm])] lambdaa var ;;
            py* q <- Done (Qred_p1 v_init) ;; py* c <- Done (to_float q) ;;
            store (mscale c M)
          else if v_chg =? -1 then
            py* M <- LC [(1%R, [Radial_Db]); (IZR (v_init + 1), [Radial_bm])] lambdaa var ;;
            py* q <- Done (Qred_m1 v_init) ;; py* c <- Done (to_float q) ;;
            store (mscale c M)
          else Done (Ok D)) D)
      (zeros (sph_dim * rad_dim)).

  (** full_operators.py:970-1050 [RepXspace_PiPi], the body. *)
  Definition PiPi_body (PiPi_L : Z) (a : xargs) : code (mat R) :=
    py* _ <- Done (require_nonnegint PiPi_L) ;;
    py* _ <- Done (xa_check a) ;;
    let rad_dim := dimRadial (xa_nu_min a) (xa_nu_max a) in
    py* sph_dim <- Done (dimSO5r3_rngVvarL (xa_v_min a) (xa_v_max a) (xa_L_min a) (Some (xa_L_max a))) ;;
    py* sph_labels <- Done (lbsSO5r3_rngVvarL (xa_v_min a) (xa_v_max a) (xa_L_min a) (Some (xa_L_max a))) ;;
    let LC rlc lambdaa var := Done (RepRadial_LC RP rlc (xa_anorm a) lambdaa var (xa_nu_min a) (xa_nu_max a) 0) in
    forC (py_range 1 (sph_dim + 1)) (fun j2 D =>
      py* (v_init, al_init, L_init) <- Done (label_at sph_labels (j2 - 1)) ;;
      let jdisp := (j2 - 1) * rad_dim in
      py* lambda_disp_init <- Done (lam v_init) ;;
      forC (py_range 1 (sph_dim + 1)) (fun i2 D =>
        py* (v_fin, al_fin, L_fin) <- Done (label_at sph_labels (i2 - 1)) ;;
        if (PiPi_L <? L_fin - L_init) || (L_fin - L_init <? - PiPi_L) then Done (Ok D)
        else
          let v_chg := v_fin - v_init in
          let idisp := (i2 - 1) * rad_dim in
          py* lambda_disp_fin <- Done (lam v_fin) ;;
          let lambdaa := (xa_lambda_base a + IZR lambda_disp_init)%R in
          let var := lambda_disp_fin - lambda_disp_init in
          let store rad_Mat :=
            py* CG2 <- CGC v_init al_init L_init 2 1 PiPi_L v_fin al_fin L_fin ;;
            py* D' <- Done (slice_set D idisp (idisp + rad_dim) jdisp (jdisp + rad_dim) (mscale CG2 rad_Mat)) ;;
            if PiPi_L =? 2 then Done (Ok (mscale (-1) D')) else Done (Ok D') in
          if v_chg =? 2 then
            py* M <- LC [(1%R, [Radial_D2b]); (IZR ((v_init + 2) * (v_init + 4)), [Radial_bm2]);
                          (IZR (-2 * v_init - 5), [Radial_bm2; Radial_bDb])] lambdaa var ;;
            py* q <- Done (QxQred_p2 v_init) ;; py* c <- Done (to_float q) ;;
            store (mscale (- c) M)
          else if v_chg =? -2 then
            py* M <- LC [(1%R, [Radial_D2b]); (IZR ((v_init - 1) * (v_init + 1)), [Radial_bm2]);
                          (IZR (2 * v_init + 1), [Radial_bm2; Radial_bDb])] lambdaa var ;;
            py* q <- Done (QxQred_m2 v_init) ;; py* c <- Done (to_float q) ;;
            store (mscale (- c) M)
          else if v_chg =? 0 then
            py* M <- LC [(1%R, [Radial_D2b]); (IZR (- (v_init + 1) * (v_init + 2)), [Radial_bm2])] lambdaa var ;;
            py* q <- Done (QxQred_0 v_init) ;; py* c <- Done (to_float q) ;;
            store (mscale (- c) M)
          else Done (Ok D)) D)
      (zeros (sph_dim * rad_dim)).

  (** full_operators.py:1368-1381 [QixQxQred]; simplifications as in FullOps.v. *)
  Definition QixQxQredC (v_i v_f v_int : Z) : code (option R) :=
    py* _ <- Done (require_nonnegint v_i) ;;
    py* _ <- Done (require_nonnegint v_f) ;;
    py* _ <- Done (require_nonnegint v_int) ;;
    let L_i := 2 * Z.min v_i v_f in
    py* mediates <- Done (lbsSO5r3_rngL v_int (L_i - 2) (L_i + 2)) ;;
    py* m1 <- Done (ME_SO5red v_f 1 v_int) ;;
    py* m2 <- Done (ME_SO5red v_int 2 v_i) ;;
    py* terms <- mapC (fun s : label =>
      let '(_, al, L) := s in
      py* c1 <- CGC v_int al L 1 1 2 v_f 1 L_i ;;
      py* c2 <- CGC v_i 1 L_i 2 1 2 v_int al L ;;
      py* d <- Done (dimSO3 L) ;;
      Done (Ok (c1 * c2 * sqrt (IZR d) * powerRZ (-1) L)%R)) mediates ;;
    py* c <- CGC v_i 1 L_i 3 1 0 v_f 1 L_i ;;
    py* d <- Done (dimSO3 L_i) ;;
    Done (Ok (match m1, m2 with
        | Some x1, Some x2 =>
            if Req_EM_T c 0 then None
            else Some (- x1 * x2 * sqrt (2 / 7) / 15 * fold_right Rplus 0 terms / c / sqrt (5 * IZR d))%R
        | _, _ => None
        end)).

  (** full_operators.py:1218-1324 [RepXspace_PiqPi], the body. *)
  Definition PiqPi_body (a : xargs) : code (mat R) :=
    py* _ <- Done (xa_check a) ;;
    let rad_dim := dimRadial (xa_nu_min a) (xa_nu_max a) in
    py* sph_dim <- Done (dimSO5r3_rngVvarL (xa_v_min a) (xa_v_max a) (xa_L_min a) (Some (xa_L_max a))) ;;
    py* sph_labels <- Done (lbsSO5r3_rngVvarL (xa_v_min a) (xa_v_max a) (xa_L_min a) (Some (xa_L_max a))) ;;
    let LC rlc lambdaa var lap :=
      Done (RepRadial_LC RP rlc (xa_anorm a) lambdaa var (xa_nu_min a) (xa_nu_max a) lap) in
    forC (py_range 1 (sph_dim + 1)) (fun j2 D =>
      py* (v_init, al_init, L_init) <- Done (label_at sph_labels (j2 - 1)) ;;
      let jdisp := (j2 - 1) * rad_dim in
      py* lambda_disp_init <- Done (lam v_init) ;;
      forC (py_range 1 (sph_dim + 1)) (fun i2 D =>
        py* (v_fin, al_fin, L_fin) <- Done (label_at sph_labels (i2 - 1)) ;;
        if negb (L_fin =? L_init) then Done (Ok D)
        else
          let v_chg := v_fin - v_init in
          let idisp := (i2 - 1) * rad_dim in
          py* lambda_disp_fin <- Done (lam v_fin) ;;
          let lambdaa := (xa_lambda_base a + IZR lambda_disp_init)%R in
          let var := lambda_disp_fin - lambda_disp_init in
          let store rad_Mat :=
            py* CG2 <- CGC v_init al_init L_init 3 1 0 v_fin al_fin L_fin ;;
            Done (slice_set D idisp (idisp + rad_dim) jdisp (jdisp + rad_dim) (mscale CG2 rad_Mat)) in
          if v_chg =? 3 then
            py* M <- LC [(1%R, [Radial_b; Radial_D2b]); (IZR ((v_init + 2) * (v_init + 4)), [Radial_bm]);
                          (IZR (-2 * v_init - 5), [Radial_Db])] lambdaa var 1 ;;
            py* q <- Done (QxQxQred_p3 v_init) ;; py* c <- Done (to_float q) ;;
            store (mscale c M)
          else if v_chg =? -3 then
            py* M <- LC [(1%R, [Radial_b; Radial_D2b]); (IZR ((v_init - 1) * (v_init + 1)), [Radial_bm]);
                          (IZR (2 * v_init + 1), [Radial_Db])] lambdaa var 1 ;;
            py* q <- Done (QxQxQred_m3 v_init) ;; py* c <- Done (to_float q) ;;
            store (mscale c M)
          else if v_chg =? 1 then Done (Raise AttributeError)
          else if v_chg =? -1 then
            py* M <- LC [(1%R, [Radial_b; Radial_D2b]); (IZR (- (v_init + 1) * (v_init + 2)), [Radial_bm])]
                         lambdaa var 0 ;;
            py* M2 <- LC [(1%R, [Radial_Db]); (IZR (v_init + 1), [Radial_bm])] lambdaa var 0 ;;
            py* q <- Done (QxQxQred_m1 v_init) ;; py* c <- Done (to_float q) ;;
            py* q2 <- QixQxQredC v_init v_fin (v_fin - 1) ;; py* c2 <- Done (to_float q2) ;;
            store (madd (mscale c M) (mscale (IZR (- (2 * v_init)) * c2) M2))
          else Done (Ok D)) D)
      (zeros (sph_dim * rad_dim)).

  (** The cached functions of full_operators.py, by name. *)
  Definition full_body (n : xname) (a : xargs) : code (mat R) :=
    match n with
    | NPi => Pi_body a
    | NPiPi L => PiPi_body L a
    | NPiqPi => PiqPi_body a
    end.
  Definition callC (n : xname) (a : xargs) : code (mat R) := Cached (KFull n a) (full_body n a) (fun M => Done (Ok M)).

  (** full_operators.py:422-475: the loop over the operators. *)
  Fixpoint prod_loopC (a : xargs) (ops : list osym) (run : option (mat R))
      (nu_ops : list rsym) (sph_ops : list osym) : code (option (mat R) * list rsym * list osym) :=
    match ops with
    | [] => Done (Ok (run, nu_ops, sph_ops))
    | op :: ops' =>
        let full (n : xname) :=
          py* run' <- (if nonempty nu_ops || nonempty sph_ops
                       then py* T <- RepXspace_TwinC nu_ops sph_ops a ;; Done (times run T)
                       else Done (Ok run)) ;;
          py* X <- callC n a ;;
          py* run'' <- Done (times run' X) ;;
          prod_loopC a ops' run'' [] [] in
        match op with
        | ORad (Radial_other _) =>
            py* _ <- (if nonempty nu_ops || nonempty sph_ops
                      then py* T <- RepXspace_TwinC nu_ops sph_ops a ;; Done (times run T)
                      else Done (Ok run)) ;;
            Done (Raise ValueError)
        | ORad r => prod_loopC a ops' run (nu_ops ++ [r]) sph_ops
        | OSph _ | SpDiag_sqLdim | SpDiag_sqLdiv => prod_loopC a ops' run nu_ops (sph_ops ++ [op])
        | Xspace_PiqPi => full NPiqPi
        | Xspace_PiPi2 => full (NPiPi 2)
        | Xspace_PiPi4 => full (NPiPi 4)
        | Xspace_Pi => full NPi
        end
    end.

  (** full_operators.py:402-497 [RepXspace_Prod]. *)
  Definition RepXspace_ProdC (x_ops : list osym) (a : xargs) : code (mat R) :=
    py* _ <- Done (xa_check a) ;;
    py* (run, nu_ops, sph_ops) <- prod_loopC a x_ops None [] [] ;;
    py* T <- RepXspace_TwinC nu_ops sph_ops a ;;
    py* run' <- Done (times run T) ;;
    match run' with
    | Some P => Done (Ok P)
    | None => Done (Raise AssertionError)
    end.

  (** full_operators.py:269-288 [RepXspace_Term]. *)
  Definition RepXspace_TermC (t : OperatorTerm) (Xlabels : list xlabel) (a : xargs) : code (mat R) :=
    py* Rmat <- RepXspace_ProdC (snd t) a ;;
    match fst t with
    | CNum c => Done (Ok (mscale c Rmat))
    | CSym f =>
        let coeffs := map (fun x : xlabel => let '(nu, (v, al, L)) := x in f nu v al L) Xlabels in
        if zlen coeffs =? ncols Rmat then
          Done (Ok (mkMat (nrows Rmat) (ncols Rmat)
                     (fun i j => (nth (Z.to_nat j) coeffs 0 * ent Rmat i j)%R)))
        else Done (Raise ValueError)
    end.

  Fixpoint terms_loopC (ts : list OperatorTerm) (Xlabels : list xlabel) (a : xargs) (acc : mat R) : code (mat R) :=
    match ts with
    | [] => Done (Ok acc)
    | t :: ts' => py* N <- RepXspace_TermC t Xlabels a ;; terms_loopC ts' Xlabels a (madd acc N)
    end.

  (** full_operators.py:230-266 [RepXspace]; lines 260-264 clear the tables. *)
  Definition RepXspaceC (x_oplc : OperatorSum) (anorm lambda_base : R)
      (nu_min nu_max v_min v_max L : Z) (L_max : option Z) : code (mat R) :=
    let L_max := match L_max with None => L | Some l => l end in
    let a := mkXA anorm lambda_base nu_min nu_max v_min v_max L L_max in
    py* _ <- Done (xa_check a) ;;
    py* Rmat <-
      match x_oplc with
      | [] => Done (let* d := dimXspace nu_min nu_max v_min v_max L (Some L_max) in Ok (zeros d))
      | t :: ts =>
          py* Xlabels <- Done (lbsXspace nu_min nu_max v_min v_max L (Some L_max)) ;;
          py* M0 <- RepXspace_TermC t Xlabels a ;;
          terms_loopC ts Xlabels a M0
      end ;;
    Clear (fun _ => true) (Done (Ok Rmat)).

  (** The body of the function behind a key. *)
  Definition body_of (k : rkey) : code (mat R) :=
    match k with
    | KHarmonic v al L v_min v_max L_min L_max => Y_body v al L v_min v_max L_min L_max
    | KProduct ys v_min v_max L_min L_max => RepSO5r3_Prod_wrk ys v_min v_max L_min L_max
    | KFull n a => full_body n a
    end.
End FullOpsC.

(** ** Sessions *)

Section Sessions.
  Variable home : text.
  Variable RP : list rsym -> R -> R -> Z -> Z -> Z -> Z -> res (mat R).
  Variable lam : Z -> res Z.

  (** Calls of the functions that compute matrices: [RepSO5_Y_rem],
      [RepSO5r3_Prod], [RepSO5r3_Prod_rem], [RepXspace_Pi] and its likes,
      [RepXspace_Prod], [RepXspace]. *)
  Inductive call : Type :=
  | CHarmonic (v al L v_min v_max L_min L_max : Z)
  | CProduct (ys : list ysop) (v_min v_max L_min L_max : Z)
  | CProductRem (ys : list ysop) (v_min v_max L_min L_max : Z)
  | CFull (n : xname) (a : xargs)
  | CWord (w : list osym) (a : xargs)
  | CXspace (op : OperatorSum) (anorm lambda_base : R) (nu_min nu_max v_min v_max L : Z) (L_max : option Z).

  Definition code_of (c : call) : code (mat R) :=
    match c with
    | CHarmonic v al L v_min v_max L_min L_max => RepSO5_Y_rem v al L v_min v_max L_min L_max
    | CProduct ys v_min v_max L_min L_max => RepSO5r3_ProdC ys v_min v_max L_min L_max
    | CProductRem ys v_min v_max L_min L_max => RepSO5r3_Prod_rem ys v_min v_max L_min L_max
    | CFull n a => callC RP lam n a
    | CWord w a => RepXspace_ProdC RP lam w a
    | CXspace op anorm lambda_base nu_min nu_max v_min v_max L L_max =>
        RepXspaceC RP lam op anorm lambda_base nu_min nu_max v_min v_max L L_max
    end.

  (** What happens to a process: the user sets the data directory
      ([SO5CGConfig.set_base_directory]), the files on the disk change, the
      user asks for a coefficient, a table, or a matrix. *)
  Inductive event : Type :=
  | SetDirectory (d : text)
  | DiskBecomes (F : disk)
  | CallCoefficient (v1 a1 L1 v2 a2 L2 v3 a3 L3 : Z)
  | CallLoad (v1 v2 a2 L2 v3 : Z)
  | CallMatrix (c : call).

  Inductive outcome : Type :=
  | Nothing
  | Number (r : res R)
  | Loaded (r : res unit)
  | Matrix (r : res (mat R)).

  Record world : Type := mkW { w_disk : disk; w_cg : cg_state; w_tab : tables }.

  Definition step (e : event) (w : world) : outcome * world :=
    match e with
    | SetDirectory d => (Nothing, mkW (w_disk w) (set_base_directory d (w_cg w)) (w_tab w))
    | DiskBecomes F => (Nothing, mkW F (w_cg w) (w_tab w))
    | CallCoefficient v1 a1 L1 v2 a2 L2 v3 a3 L3 =>
        let '(r, cg) := CG_SO5r3 (w_disk w) home (w_cg w) v1 a1 L1 v2 a2 L2 v3 a3 L3 in
        (Number r, mkW (w_disk w) cg (w_tab w))
    | CallLoad v1 v2 a2 L2 v3 =>
        let '(r, cg) := load_CG_table (w_disk w) home (w_cg w) v1 v2 a2 L2 v3 in
        (Loaded r, mkW (w_disk w) cg (w_tab w))
    | CallMatrix c =>
        let '(r, cg, t) := run home (code_of c) (w_disk w) (w_cg w) (w_tab w) in
        (Matrix r, mkW (w_disk w) cg t)
    end.

  Fixpoint session (es : list event) (w : world) : list outcome * world :=
    match es with
    | [] => ([], w)
    | e :: es' =>
        let '(o, w1) := step e w in
        let '(os, w2) := session es' w1 in
        (o :: os, w2)
    end.

  (** A process that has just been started. *)
  Definition started (F : disk) : world := mkW F cg_init [].

  (** The same without memo tables of matrices. *)
  Definition step_plain (e : event) (w : disk * cg_state) : outcome * (disk * cg_state) :=
    let '(F, cg) := w in
    match e with
    | SetDirectory d => (Nothing, (F, set_base_directory d cg))
    | DiskBecomes F' => (Nothing, (F', cg))
    | CallCoefficient v1 a1 L1 v2 a2 L2 v3 a3 L3 =>
        let '(r, cg') := CG_SO5r3 F home cg v1 a1 L1 v2 a2 L2 v3 a3 L3 in (Number r, (F, cg'))
    | CallLoad v1 v2 a2 L2 v3 =>
        let '(r, cg') := load_CG_table F home cg v1 v2 a2 L2 v3 in (Loaded r, (F, cg'))
    | CallMatrix c =>
        let '(r, cg') := run_plain home (code_of c) F cg in (Matrix r, (F, cg'))
    end.

  Fixpoint session_plain (es : list event) (w : disk * cg_state) : list outcome * (disk * cg_state) :=
    match es with
    | [] => ([], w)
    | e :: es' =>
        let '(o, w1) := step_plain e w in
        let '(os, w2) := session_plain es' w1 in
        (o :: os, w2)
    end.
End Sessions.
