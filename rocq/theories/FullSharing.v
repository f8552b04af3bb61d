(** The spherical and full-space matrices as mutable arrays.  The functions of
    src/acmpy/internal_operators.py and src/acmpy/full_operators.py return
    references to NumPy arrays and keep references in memo tables
    ([functools.cache]).  Here memory is a list of arrays, an address is a
    position in it, and the functions are those of Operators.v and FullOps.v
    with every allocation, copy and sharing.

    Simplifications: the memo tables are one table, from calls (DataMemo.v) to
    addresses; radial matrices are values (they are read and multiplied, never
    returned or kept; their sharing is in Sharing.v); the coefficients and the
    lambda function do not change (changes are in DataMemo.v and Globals.v);
    an array that is filled entry by entry before anything else can refer to it
    ([np.array], [direct_Mat]) is one allocation of the filled array. *)

From Coq Require Import Reals.
From Verif Require Import PyBase Compat Matrix Spherical FullLabels RadialOps Operators FullOps DataMemo.
Open Scope Z_scope.

Record amem : Type := mkA { arrays : list (mat R); table : rkey -> option nat }.
Definition new_process : amem := mkA [] (fun _ => None).

Definition no_array : mat R := mkMat 0 0 (fun _ _ => 0%R).
Definition content (m : amem) (a : nat) : mat R := nth a (arrays m) no_array.

(** Computations that use memory: an exception keeps what has been written. *)
Definition am (A : Type) : Type := amem -> res A * amem.
Definition aret {A} (a : A) : am A := fun m => (Ok a, m).
Definition alift {A} (x : res A) : am A := fun m => (x, m).
Definition abind {A B} (f : am A) (g : A -> am B) : am B := fun m =>
  match f m with (Ok a, m') => g a m' | (Raise e, m') => (Raise e, m') end.
Notation "'arr*' x <- f ;; g" := (abind f (fun x => g)) (at level 200, x pattern, f at level 100, g at level 200, right associativity).

(** A new array; the entries of an array; [a.copy()]. *)
Definition alloc (M : mat R) : am nat := fun m =>
  (Ok (length (arrays m)), mkA (arrays m ++ [M]) (table m)).
Definition read (a : nat) : am (mat R) := fun m => (Ok (content m a), m).
Definition copyA (a : nat) : am nat := arr* M <- read a ;; alloc M.
(** [a @ b], [a + b] and [c * a] make new arrays. *)
Definition mulA (a b : nat) : am nat :=
  arr* M <- read a ;; arr* N <- read b ;; arr* P <- alift (matmul M N) ;; alloc P.
Definition addA (a b : nat) : am nat :=
  arr* M <- read a ;; arr* N <- read b ;; alloc (madd M N).
Definition scaleA (c : R) (a : nat) : am nat := arr* M <- read a ;; alloc (mscale c M).

(** [functools.cache]: results are remembered, exceptions are not. *)
Definition remember (k : rkey) (f : am nat) : am nat := fun m =>
  match table m k with
  | Some a => (Ok a, m)
  | None =>
      match f m with
      | (Ok a, m') => (Ok a, mkA (arrays m') (fun k' => if rkey_eq_dec k' k then Some a else table m' k'))
      | (Raise e, m') => (Raise e, m')
      end
  end.
(** [cache_clear] of the functions selected by [p]. *)
Definition cache_clear (p : rkey -> bool) : am unit := fun m =>
  (Ok tt, mkA (arrays m) (fun k => if p k then None else table m k)).

Section FullSharing.
  (** As in FullOps.v. *)
  Variable RP : list rsym -> R -> R -> Z -> Z -> Z -> Z -> res (mat R).
  Variable CG : Z -> Z -> Z -> Z -> Z -> Z -> Z -> Z -> Z -> res R.
  Variable lam : Z -> res Z.

  (** internal_operators.py:275-283 [RepSO5_Y_rem]. *)
  Definition RepSO5_Y_remA (v al L v_min v_max L_min L_max : Z) : am nat :=
    remember (KHarmonic v al L v_min v_max L_min L_max)
      (arr* M <- alift (RepSO5_Y CG v al L v_min v_max L_min L_max) ;; alloc M).

  (** internal_operators.py:493-504: the array of one designator; those of
      [RepSO5_sqLdim] and [RepSO5_sqLdiv] are new. *)
  Definition ys_matA (y : ysop) (v_min v_max L_min L_max : Z) : am nat :=
    match y with
    | YTriple v al L => RepSO5_Y_remA v al L v_min v_max L_min L_max
    | YSym (OSph h) =>
        let '(v, al, L) := SpHarm_Table h in RepSO5_Y_remA v al L v_min v_max L_min L_max
    | YSym SpDiag_sqLdim => arr* M <- alift (RepSO5_sqLdim v_min v_max L_min L_max) ;; alloc M
    | YSym SpDiag_sqLdiv => arr* M <- alift (RepSO5_sqLdiv v_min v_max L_min L_max) ;; alloc M
    | YSym _ => alift (Raise ValueError)
    end.

  (** internal_operators.py:490-506: the loop; the first array is copied. *)
  Fixpoint wrk_loopA (ys : list ysop) (v_min v_max L_min L_max : Z) (Mat_product : option nat) : am (option nat) :=
    match ys with
    | [] => aret Mat_product
    | y :: ys' =>
        arr* M <- ys_matA y v_min v_max L_min L_max ;;
        arr* P <- match Mat_product with None => copyA M | Some P => mulA P M end ;;
        wrk_loopA ys' v_min v_max L_min L_max (Some P)
    end.
  (** internal_operators.py:482-509 [RepSO5r3_Prod_wrk]. *)
  Definition RepSO5r3_Prod_wrkA (ys : list ysop) (v_min v_max L_min L_max : Z) : am nat :=
    match ys with
    | [] =>
        arr* d <- alift (dimSO5r3_rngVvarL v_min v_max L_min (Some L_max)) ;;
        alloc (eye d)
    | _ =>
        arr* P <- wrk_loopA ys v_min v_max L_min L_max None ;;
        match P with Some P => aret P | None => alift (Raise AssertionError) end
    end.
  (** internal_operators.py:410-414 [RepSO5r3_Prod_rem]. *)
  Definition RepSO5r3_Prod_remA (ys : list ysop) (v_min v_max L_min L_max : Z) : am nat :=
    remember (KProduct ys v_min v_max L_min L_max) (RepSO5r3_Prod_wrkA ys v_min v_max L_min L_max).
  Definition harmonic_key (k : rkey) : bool := match k with KHarmonic _ _ _ _ _ _ _ => true | _ => false end.
  (** internal_operators.py:391-397 [RepSO5r3_Prod]. *)
  Definition RepSO5r3_ProdA (ys : list ysop) (v_min v_max L_min L_max : Z) : am nat :=
    arr* rep <- RepSO5r3_Prod_wrkA ys v_min v_max L_min L_max ;;
    arr* _ <- cache_clear harmonic_key ;;
    aret rep.

  (** full_operators.py:632-655: [direct_Mat] from the entries of [sph_Mat]. *)
  Definition twin_blocks (rad_ops : list rsym) (a : xargs) (sph_dim : Z) (sph_labels : list label) (sph_Mat : mat R) : res (mat R) :=
    let rad_dim := dimRadial (xa_nu_min a) (xa_nu_max a) in
    for_ (py_range 1 (sph_dim + 1)) (fun j2 D =>
      let jdisp := (j2 - 1) * rad_dim in
      let* (v_j, _, _) := label_at sph_labels (j2 - 1) in
      let* lambda_disp_init := lam v_j in
      for_ (py_range 1 (sph_dim + 1)) (fun i2 D =>
        let idisp := (i2 - 1) * rad_dim in
        let* (v_i, _, _) := label_at sph_labels (i2 - 1) in
        let* lambda_disp_fin := lam v_i in
        let sph_ME := ent sph_Mat (i2 - 1) (j2 - 1) in
        if Req_EM_T sph_ME 0 then Ok D
        else
          let* rad_Mat := RP rad_ops (xa_anorm a) (xa_lambda_base a + IZR lambda_disp_init)
                            (lambda_disp_fin - lambda_disp_init) (xa_nu_min a) (xa_nu_max a) 0 in
          slice_set D idisp (idisp + rad_dim) jdisp (jdisp + rad_dim) (mscale sph_ME rad_Mat)) D)
      (zeros (sph_dim * rad_dim)).
  (** full_operators.py:612-655 [RepXspace_Twin]: [sph_Mat] is a new array, a
      multiple of the remembered one. *)
  Definition RepXspace_TwinA (rad_ops : list rsym) (sph_ops : list osym) (a : xargs) : am nat :=
    arr* _ <- alift (xa_check a) ;;
    arr* sph_dim <- alift (dimSO5r3_rngVvarL (xa_v_min a) (xa_v_max a) (xa_L_min a) (Some (xa_L_max a))) ;;
    arr* sph_labels <- alift (lbsSO5r3_rngVvarL (xa_v_min a) (xa_v_max a) (xa_L_min a) (Some (xa_L_max a))) ;;
    let ys := map YSym sph_ops in
    arr* sph_Mat <- RepSO5r3_Prod_remA ys (xa_v_min a) (xa_v_max a) (xa_L_min a) (xa_L_max a) ;;
    arr* sph_Mat <- scaleA (powerRZ Convert_red (NumSO5r3_Prod ys)) sph_Mat ;;
    arr* entries <- read sph_Mat ;;
    arr* direct_Mat <- alift (twin_blocks rad_ops a sph_dim sph_labels entries) ;;
    alloc direct_Mat.

  (** full_operators.py:769-826 [RepXspace_Pi], 970-1050 [RepXspace_PiPi],
      1218-1327 [RepXspace_PiqPi] with their memo tables. *)
  Definition callA (n : xname) (a : xargs) : am nat :=
    remember (KFull n a) (arr* M <- alift (xcompute RP CG lam n a) ;; alloc M).

  (** full_operators.py:432-448, 478-489: [run_Mat] times a new array, which is
      used itself when it is the first. *)
  Definition times_new (run : option nat) (X : nat) : am (option nat) :=
    match run with
    | None => aret (Some X)
    | Some P => arr* Q <- mulA P X ;; aret (Some Q)
    end.
  (** full_operators.py:468-475: [run_Mat] times a remembered array, which is
      copied when it is the first. *)
  Definition times_remembered (run : option nat) (X : nat) : am (option nat) :=
    match run with
    | None => arr* Q <- copyA X ;; aret (Some Q)
    | Some P => arr* Q <- mulA P X ;; aret (Some Q)
    end.

  (** full_operators.py:422-475: the loop over the operators. *)
  Fixpoint prod_loopA (a : xargs) (ops : list osym) (run : option nat)
      (nu_ops : list rsym) (sph_ops : list osym) : am (option nat * list rsym * list osym) :=
    match ops with
    | [] => aret (run, nu_ops, sph_ops)
    | op :: ops' =>
        let pending :=
          if nonempty nu_ops || nonempty sph_ops
          then arr* T <- RepXspace_TwinA nu_ops sph_ops a ;; times_new run T
          else aret run in
        let full (n : xname) :=
          arr* run' <- pending ;;
          arr* X <- callA n a ;;
          arr* run'' <- times_remembered run' X ;;
          prod_loopA a ops' run'' [] [] in
        match op with
        | ORad (Radial_other _) => arr* _ <- pending ;; alift (Raise ValueError)
        | ORad r => prod_loopA a ops' run (nu_ops ++ [r]) sph_ops
        | OSph _ | SpDiag_sqLdim | SpDiag_sqLdiv => prod_loopA a ops' run nu_ops (sph_ops ++ [op])
        | Xspace_PiqPi => full NPiqPi
        | Xspace_PiPi2 => full (NPiPi 2)
        | Xspace_PiPi4 => full (NPiPi 4)
        | Xspace_Pi => full NPi
        end
    end.
  (** full_operators.py:402-497 [RepXspace_Prod], see FullOps.v. *)
  Definition RepXspace_ProdA (x_ops : list osym) (a : xargs) : am nat :=
    arr* _ <- alift (xa_check a) ;;
    arr* st <- prod_loopA a x_ops None [] [] ;;
    let '(run, nu_ops, sph_ops) := st in
    arr* T <- RepXspace_TwinA nu_ops sph_ops a ;;
    arr* run' <- times_new run T ;;
    match run' with
    | Some P => aret P
    | None => alift (Raise AssertionError)
    end.

  (** full_operators.py:269-288 [RepXspace_Term]. *)
  Definition RepXspace_TermA (t : OperatorTerm) (Xlabels : list xlabel) (a : xargs) : am nat :=
    arr* Rmat <- RepXspace_ProdA (snd t) a ;;
    match fst t with
    | CNum c => scaleA c Rmat
    | CSym f =>
        let coeffs := map (fun x : xlabel => let '(nu, (v, al, L)) := x in f nu v al L) Xlabels in
        arr* M <- read Rmat ;;
        if zlen coeffs =? ncols M then
          alloc (mkMat (nrows M) (ncols M) (fun i j => (nth (Z.to_nat j) coeffs 0 * ent M i j)%R))
        else alift (Raise ValueError)
    end.
  Fixpoint terms_loopA (ts : list OperatorTerm) (Xlabels : list xlabel) (a : xargs) (Rmat : nat) : am nat :=
    match ts with
    | [] => aret Rmat
    | t :: ts' =>
        arr* N <- RepXspace_TermA t Xlabels a ;;
        arr* Rmat <- addA Rmat N ;;
        terms_loopA ts' Xlabels a Rmat
    end.
  (** full_operators.py:252-264: the tables cleared at the end. *)
  Definition any_key (k : rkey) : bool := true.
  (** full_operators.py:230-266 [RepXspace]: after an exception nothing is
      cleared. *)
  Definition RepXspaceA (x_oplc : OperatorSum) (anorm lambda_base : R)
      (nu_min nu_max v_min v_max L : Z) (L_max : option Z) : am nat :=
    let L_max := match L_max with None => L | Some l => l end in
    let a := mkXA anorm lambda_base nu_min nu_max v_min v_max L L_max in
    arr* _ <- alift (xa_check a) ;;
    arr* Rmat <- match x_oplc with
                 | [] =>
                     arr* d <- alift (dimXspace nu_min nu_max v_min v_max L (Some L_max)) ;;
                     alloc (zeros d)
                 | t :: ts =>
                     arr* Xlabels <- alift (lbsXspace nu_min nu_max v_min v_max L (Some L_max)) ;;
                     arr* Rmat <- RepXspace_TermA t Xlabels a ;;
                     terms_loopA ts Xlabels a Rmat
                 end ;;
    arr* _ <- cache_clear any_key ;;
    aret Rmat.

  (** ** Sessions *)

  (** What a user can do with these functions: call [RepXspace],
      [RepXspace_Prod], [RepXspace_Twin] or [RepSO5r3_Prod]; call a function
      that remembers, [RepSO5_Y_rem], [RepSO5r3_Prod_rem] or one of
      [RepXspace_Pi], [RepXspace_PiPi], [RepXspace_PiqPi]; change the array
      returned by the call that was event number [i] of the session. *)
  Inductive event : Type :=
  | CallXspace (op : OperatorSum) (anorm lambda_base : R) (nu_min nu_max v_min v_max L : Z) (L_max : option Z)
  | CallWord (w : list osym) (a : xargs)
  | CallTwin (rad_ops : list rsym) (sph_ops : list osym) (a : xargs)
  | CallProduct (ys : list ysop) (v_min v_max L_min L_max : Z)
  | CallRemembering (k : rkey)
  | Modify (i : nat) (M : mat R).

  Definition recallA (k : rkey) : am nat :=
    match k with
    | KHarmonic v al L v_min v_max L_min L_max => RepSO5_Y_remA v al L v_min v_max L_min L_max
    | KProduct ys v_min v_max L_min L_max => RepSO5r3_Prod_remA ys v_min v_max L_min L_max
    | KFull n a => callA n a
    end.

  (** What is seen of an event: the matrix returned, as it is when returned, or
      the exception. *)
  Inductive seen : Type :=
  | Returned (M : mat R)
  | Raised (e : exn)
  | Nothing.

  (** A process: its memory, and for every event so far the array it
      returned. *)
  Record process : Type := mkP { memory : amem; returned : list (option nat) }.
  Definition started : process := mkP new_process [].

  Definition returning (f : am nat) (p : process) : seen * process :=
    match f (memory p) with
    | (Ok a, m) => (Returned (content m a), mkP m (returned p ++ [Some a]))
    | (Raise e, m) => (Raised e, mkP m (returned p ++ [None]))
    end.
  (** Replace the array at an address. *)
  Fixpoint put {A} (l : list A) (n : nat) (x : A) : list A :=
    match l, n with
    | [], _ => []
    | _ :: l', O => x :: l'
    | y :: l', S n' => y :: put l' n' x
    end.
  Definition step (e : event) (p : process) : seen * process :=
    match e with
    | CallXspace op an lb n0 n1 v0 v1 L Lm => returning (RepXspaceA op an lb n0 n1 v0 v1 L Lm) p
    | CallWord w a => returning (RepXspace_ProdA w a) p
    | CallTwin rad sph a => returning (RepXspace_TwinA rad sph a) p
    | CallProduct ys v0 v1 L0 L1 => returning (RepSO5r3_ProdA ys v0 v1 L0 L1) p
    | CallRemembering k => returning (recallA k) p
    | Modify i M =>
        (Nothing, mkP
          (match nth_error (returned p) i with
           | Some (Some a) => mkA (put (arrays (memory p)) a M) (table (memory p))
           | _ => memory p
           end) (returned p ++ [None]))
    end.
  Fixpoint session (es : list event) (p : process) : list seen * process :=
    match es with
    | [] => ([], p)
    | e :: es' =>
        let '(o, p1) := step e p in
        let '(os, p2) := session es' p1 in (o :: os, p2)
    end.
End FullSharing.
