(** The radial matrices as mutable arrays.  The functions of
    src/acmpy/radial_space.py return references to NumPy arrays, keep
    references in memo tables ([functools.cache]) and hand the same array to
    several callers.  Here memory is a list of arrays, an address is a position
    in it, and the functions are those of RadialOps.v with every allocation,
    every sharing and every assignment in place.

    All memo tables are one table, from calls to references; [cache_clear] of
    some of the functions forgets the calls of these functions.  Keys are
    compared by the values of the arguments. *)

From Coq Require Import Reals.
From Verif Require Import PyBase Compat Matrix RadialOps RadialME FullOps.
Open Scope Z_scope.

(** A reference: an array, or a view of part of one ([M[r0:r1, c0:c1]] does not
    copy). *)
Inductive ref : Type :=
| Whole (a : nat)
| View (r : ref) (r0 r1 c0 c1 : Z).

(** The array that holds the entries ([base] in NumPy, for a view). *)
Fixpoint base (r : ref) : nat :=
  match r with Whole a => a | View r _ _ _ _ => base r end.

(** Calls of the functions with a memo table: [RepRadial], [RepRadial_param],
    [RepRadial_b2_sqrt] and [RepRadial_b2_sqrtInv] (radial_space.py:714-772);
    [RepRadial_bS_DS] (1077); [RepRadialshfs_Prod] (1477);
    [RepRadial_Prod_rem] (1719); [RepRadial_LC_rem] (2155). *)
Inductive key : Type :=
| KElem (e : elem) (lambdaa : R) (nu_min nu_max : Z)
| KbSDS (K T : Z) (anorm lambdaa : R) (R_ nu_min nu_max : Z)
| KShfs (rps_op : list ktsop) (anorm lambdaa : R) (lambda_shfs : list Z) (nu_min nu_max : Z)
| KProd (rbs_op : list rsym) (anorm lambdaa : R) (lambda_var nu_min nu_max nu_lap : Z)
| KLC (rlc_op : radial_lc) (anorm lambdaa : R) (lambda_var nu_min nu_max nu_lap : Z).

Definition key_eq_dec (k k' : key) : {k = k'} + {k <> k'}.
Proof. repeat (decide equality; try apply Z.eq_dec; try apply Req_EM_T). Defined.

Record mem : Type := mkMem { arrays : list (mat R); tab : key -> option ref }.
Definition fresh_mem : mem := mkMem [] (fun _ => None).

Definition no_array : mat R := mkMat 0 0 (fun _ _ => 0%R).
Fixpoint content (h : list (mat R)) (r : ref) : mat R :=
  match r with
  | Whole a => nth a h no_array
  | View r r0 r1 c0 c1 => slice (content h r) r0 r1 c0 c1
  end.

(** Computations that use memory: an exception keeps what has been written. *)
Definition hm (A : Type) : Type := mem -> res A * mem.
Definition hret {A} (a : A) : hm A := fun m => (Ok a, m).
Definition hlift {A} (x : res A) : hm A := fun m => (x, m).
Definition hbind {A B} (f : hm A) (g : A -> hm B) : hm B := fun m =>
  match f m with (Ok a, m') => g a m' | (Raise e, m') => (Raise e, m') end.
Notation "'mem*' x <- f ;; g" := (hbind f (fun x => g)) (at level 200, x pattern, f at level 100, g at level 200, right associativity).
Notation "'mem!' f ;; g" := (hbind f (fun _ => g)) (at level 200, f at level 100, g at level 200, right associativity).

(** A new array. *)
Definition alloc (M : mat R) : hm ref := fun m =>
  (Ok (Whole (length (arrays m))), mkMem (arrays m ++ [M]) (tab m)).
Definition read (r : ref) : hm (mat R) := fun m => (Ok (content (arrays m) r), m).

(** Replace the array at an address. *)
Fixpoint put {A} (l : list A) (n : nat) (x : A) : list A :=
  match l, n with
  | [], _ => []
  | _ :: l', O => x :: l'
  | y :: l', S n' => y :: put l' n' x
  end.
Definition assign_array (a : nat) (M : mat R) : hm unit := fun m =>
  (Ok tt, mkMem (put (arrays m) a M) (tab m)).

(** [functools.cache]: results are remembered, exceptions are not. *)
Definition learn (k : key) (r : ref) (m : mem) : mem :=
  mkMem (arrays m) (fun k' => if key_eq_dec k' k then Some r else tab m k').
Definition memo (k : key) (f : hm ref) : hm ref := fun m =>
  match tab m k with
  | Some r => (Ok r, m)
  | None => match f m with (Ok r, m') => (Ok r, learn k r m') | (Raise e, m') => (Raise e, m') end
  end.
(** [cache_clear] of the functions selected by [p]. *)
Definition forget (p : key -> bool) : hm unit := fun m =>
  (Ok tt, mkMem (arrays m) (fun k => if p k then None else tab m k)).

(** [M @ N] and [c * M] make new arrays. *)
Definition mulH (r1 r2 : ref) : hm ref :=
  mem* M <- read r1 ;; mem* N <- read r2 ;; mem* P <- hlift (matmul M N) ;; alloc P.
Definition scaleH (c : R) (r : ref) : hm ref := mem* M <- read r ;; alloc (mscale c M).
(** [M *= c] writes into the array. *)
Definition imulH (r : ref) (c : R) : hm unit :=
  mem* M <- read r ;; assign_array (base r) (mscale c M).
(** [M += N] writes into the array [M]; shapes that differ raise. *)
Definition iaddH (r1 r2 : ref) : hm unit :=
  mem* M <- read r1 ;; mem* N <- read r2 ;;
  if (nrows M =? nrows N) && (ncols M =? ncols N) then assign_array (base r1) (madd M N) else hlift (Raise ValueError).

Section Sharing.
  (** See RadialME.v. *)
  Variable Gam : R -> R.
  Variables Matrix_sqrt Matrix_sqrtInv : mat R -> res (mat R).
  Let Rep := Rep_elem Gam Matrix_sqrt Matrix_sqrtInv.

  (** radial_space.py:714-772.  [RepRadial_b2_sqrtInv] takes the matrix of
      beta^2 from [RepRadial]; [RepRadial_b2_sqrt] builds its own.  [np.eye] is
      not remembered. *)
  Definition builtH (e : elem) (lambdaa : R) (nu_min nu_max : Z) : hm ref :=
    memo (KElem e lambdaa nu_min nu_max) (mem* M <- hlift (Rep e lambdaa nu_min nu_max) ;; alloc M).
  Definition elemH (e : elem) (lambdaa : R) (nu_min nu_max : Z) : hm ref :=
    match e with
    | M_eye => alloc (eye (nu_max - nu_min + 1))
    | M_b2_sqrtInv =>
        memo (KElem M_b2_sqrtInv lambdaa nu_min nu_max) (
          mem* Mat <- builtH M_b2 lambdaa nu_min nu_max ;;
          mem* M <- read Mat ;;
          mem* N <- hlift (Matrix_sqrtInv M) ;;
          alloc N)
    | _ => builtH e lambdaa nu_min nu_max
    end.

  (** radial_space.py:1134-1229: one [Mat].  Where the code multiplies or
      divides by a power of [anorm] a new array is made ("NEVER mutate a cached
      value!"), except on line 1227, where the product just made is scaled in
      place; where it does not (powers 0), [Mat] is the remembered array. *)
  Definition factorH (anorm lambdaa : R) (nu_min nu_max : Z) (f : factor) : hm ref :=
    match f_elems f with
    | [(e, o)] =>
        mem* Mat <- elemH e (lambdaa + IZR o) nu_min nu_max ;;
        if f_pow f =? 0 then hret Mat else scaleH (powerRZ anorm (f_pow f)) Mat
    | [(e1, o1); (e2, o2)] =>
        mem* Mat <- elemH e1 (lambdaa + IZR o1) nu_min nu_max ;;
        mem* Mat2 <- elemH e2 (lambdaa + IZR o2) nu_min nu_max ;;
        mem* Mat <- mulH Mat Mat2 ;;
        mem! imulH Mat (powerRZ anorm (f_pow f)) ;;
        hret Mat
    | _ => hlift (Raise UnboundLocalError)
    end.

  (** radial_space.py:1132-1237: the while loop; [prod] is [Mat_product]. *)
  Definition lmulH (Mat : ref) (prod : option ref) : hm (option ref) :=
    match prod with
    | None => hlift (Raise UnboundLocalError)
    | Some p => mem* q <- mulH Mat p ;; hret (Some q)
    end.
  Fixpoint loopH (fuel : nat) (anorm lambdaa : R) (nu_min nu_max K n lamX i run : Z) (s : list Z) (prod : option ref)
    : hm (option ref * Z) :=
    if 0 <? i then
      match fuel with
      | O => hlift (Raise IndexError)
      | S fuel' =>
          mem* (f, imm) <- hlift (bsds_pick K i run s) ;;
          mem* Mat <- factorH anorm lambdaa nu_min nu_max f ;;
          mem* prod' <- (if (i =? n) && (0 <=? lamX) then hret (Some Mat) else lmulH Mat prod) ;;
          loopH fuel' anorm lambdaa nu_min nu_max K n lamX (i - imm) (run + nth (Z.to_nat (i - 1)) s 0) s prod'
      end
    else hret (prod, run).

  (** radial_space.py:1086-1110: the identity with an odd shift. *)
  Definition oddH (lambdaa : R) (R_ nu_min nu_max : Z) : hm ref :=
    if R_ <? 0 then
      mem* p <- elemH M_b2_sqrt (lambdaa + IZR R_) nu_min nu_max ;;
      mem* Mat <- elemH M_bm_ml (lambdaa + IZR (R_ + 1)) nu_min nu_max ;;
      mem* p <- mulH p Mat ;;
      if R_ <? -1 then
        mem* Mat <- elemH (M_id_ml ((- (R_ + 1)) / 2)) (lambdaa + IZR 0) nu_min nu_max ;;
        mulH p Mat
      else hret p
    else
      mem* p <- elemH M_b2_sqrt (lambdaa + IZR 0) nu_min nu_max ;;
      mem* Mat <- elemH M_bm_pl (lambdaa + IZR 0) nu_min nu_max ;;
      mem* p <- mulH Mat p ;;
      if 1 <? R_ then
        mem* Mat <- elemH (M_id_pl ((R_ - 1) / 2)) (lambdaa + IZR 1) nu_min nu_max ;;
        mulH Mat p
      else hret p.

  (** radial_space.py:1082-1251: the body of [RepRadial_bS_DS]. *)
  Definition bSDS_bodyH (K T : Z) (anorm lambdaa : R) (R_ nu_min nu_max : Z) : hm ref :=
    if Rle_dec lambdaa 0 then hlift (Raise ValueError)
    else if Rle_dec (lambdaa + IZR R_) 0 then hlift (Raise ValueError)
    else if (K =? 0) && (T =? 0) && is_odd R_ then oddH lambdaa R_ nu_min nu_max
    else
      mem* splits <- hlift (Lambda_Splits K T R_) ;;
      let n := Z.abs K + T in
      let long := n <? zlen splits in
      let lamX := if long then nth 0 splits 0 else 0 in
      let s := if long then tl splits else splits in
      mem! hlift (py_assert (zlen s =? n)) ;;
      mem* prod0 <- (if lamX <? 0 then
                       mem! hlift (py_assert (is_even lamX)) ;;
                       mem* p <- elemH (M_id_ml ((- lamX) / 2)) (lambdaa + IZR 0) nu_min nu_max ;;
                       hret (Some p)
                     else hret None) ;;
      let run0 := if lamX <? 0 then lamX else 0 in
      mem* (prod1, run1) <- loopH (Z.to_nat n) anorm lambdaa nu_min nu_max K n lamX n run0 s prod0 ;;
      mem* prod2 <- (if 0 <? lamX then
                       mem! hlift (py_assert (is_even lamX)) ;;
                       mem* Mat <- elemH (M_id_pl (lamX / 2)) (lambdaa + IZR run1) nu_min nu_max ;;
                       if 0 <? n then lmulH Mat prod1 else hret (Some Mat)
                     else hret prod1) ;;
      mem* prod3 <- (if (n =? 0) && (lamX =? 0) then
                       mem* p <- elemH M_eye (lambdaa + IZR run1) nu_min nu_max ;; hret (Some p)
                     else hret prod2) ;;
      match prod3 with
      | None => hlift (Raise UnboundLocalError)
      | Some p => hret p
      end.
  Definition RepRadial_bS_DSH (K T : Z) (anorm lambdaa : R) (R_ nu_min nu_max : Z) : hm ref :=
    memo (KbSDS K T anorm lambdaa R_ nu_min nu_max) (bSDS_bodyH K T anorm lambdaa R_ nu_min nu_max).

  (** radial_space.py:1371-1375, 1393-1401 [representation]. *)
  Definition representationH (op : ktsop) (anorm lambdaa : R) (R_ nu_min nu_max : Z) : hm ref :=
    match op with
    | KTOp K T => RepRadial_bS_DSH K T anorm lambdaa R_ nu_min nu_max
    | SOp s =>
        mem! hlift (raise_if (negb (R_ =? 0)) ValueError) ;;
        elemH (if s =? -1 then M_Sm else if s =? 0 then M_S0 else M_Sp) lambdaa nu_min nu_max
    end.

  (** radial_space.py:1477-1509 [RepRadialshfs_Prod]; the loop takes the
      operators and shifts in processing order, see RadialOps.v. *)
  Fixpoint shfs_loopH (rops : list ktsop) (rshfs : list Z) (anorm lambdaa : R) (run nu_min nu_max : Z) (prod : option ref) : hm (option ref) :=
    match rops with
    | [] => hret prod
    | op :: rops' =>
        match rshfs with
        | [] => hlift (Raise IndexError)
        | R_ :: rshfs' =>
            mem* Mat <- representationH op anorm (lambdaa + IZR run) R_ nu_min nu_max ;;
            mem* prod' <- match prod with None => hret Mat | Some p => mulH Mat p end ;;
            shfs_loopH rops' rshfs' anorm lambdaa (run + R_) nu_min nu_max (Some prod')
        end
    end.
  Definition RepRadialshfs_ProdH (rps_op : list ktsop) (anorm lambdaa : R) (lambda_shfs : list Z) (nu_min nu_max : Z) : hm ref :=
    memo (KShfs rps_op anorm lambdaa lambda_shfs nu_min nu_max) (
      match rps_op with
      | [] => alloc (eye (nu_max - nu_min + 1))
      | _ =>
          mem* prod <- shfs_loopH (rev rps_op) (rev lambda_shfs) anorm lambdaa 0 nu_min nu_max None ;;
          match prod with Some p => hret p | None => hlift (Raise UnboundLocalError) end
      end).

  (** radial_space.py:1633-1663 [RepRadial_Prod_common]: with an overlap the
      result is a view. *)
  Definition RepRadial_Prod_commonH (rbs_op : list rsym) (anorm lambdaa : R) (lambda_var nu_min nu_max nu_lap : Z) : hm ref :=
    if Rle_dec lambdaa 0 then hlift (Raise ValueError)
    else if Rle_dec (lambdaa + IZR lambda_var) 0 then hlift (Raise ValueError)
    else
      mem* parsed_ops <- hlift (Parse_RadialOp_List rbs_op) ;;
      mem* lambda_shfs <- hlift (Lambda_RadialOp_List parsed_ops lambda_var) ;;
      let '(ops, shfs) := insert_id parsed_ops lambda_shfs in
      let sh := Z.min nu_lap nu_min in
      mem* rep <- RepRadialshfs_ProdH ops anorm lambdaa shfs (nu_min - sh) (nu_max + nu_lap) ;;
      if nu_lap =? 0 then hret rep
      else hret (View rep sh (1 + nu_max - nu_min + sh) sh (1 + nu_max - nu_min + sh)).

  (** The functions whose tables are cleared at radial_space.py:1623-1628, at
      2096-2101 and at full_operators.py:252-259. *)
  Definition cleared_by_Prod (k : key) : bool :=
    match k with KElem _ _ _ _ | KbSDS _ _ _ _ _ _ _ | KShfs _ _ _ _ _ _ => true | _ => false end.
  Definition cleared_by_LC (k : key) : bool :=
    match k with KElem _ _ _ _ | KShfs _ _ _ _ _ _ | KProd _ _ _ _ _ _ _ => true | _ => false end.
  Definition cleared_by_Xspace (k : key) : bool := true.

  (** radial_space.py:1616-1630 [RepRadial_Prod]: after an exception nothing is
      cleared. *)
  Definition RepRadial_ProdH (rbs_op : list rsym) (anorm lambdaa : R) (lambda_var nu_min nu_max nu_lap : Z) : hm ref :=
    mem* rep <- RepRadial_Prod_commonH rbs_op anorm lambdaa lambda_var nu_min nu_max nu_lap ;;
    mem! forget cleared_by_Prod ;;
    hret rep.

  (** radial_space.py:1719-1726 [RepRadial_Prod_rem]. *)
  Definition RepRadial_Prod_remH (rbs_op : list rsym) (anorm lambdaa : R) (lambda_var nu_min nu_max nu_lap : Z) : hm ref :=
    memo (KProd rbs_op anorm lambdaa lambda_var nu_min nu_max nu_lap)
         (RepRadial_Prod_commonH rbs_op anorm lambdaa lambda_var nu_min nu_max nu_lap).

  (** radial_space.py:2106-2124 [RepRadial_LC_common]: the terms after the first
      are added in place. *)
  Fixpoint LC_loopH (rest : radial_lc) (anorm lambdaa : R) (lambda_var nu_min nu_max nu_lap : Z) (M : ref) : hm ref :=
    match rest with
    | [] => hret M
    | (coeff, op) :: rest' =>
        mem* rep <- RepRadial_Prod_remH op anorm lambdaa lambda_var nu_min nu_max nu_lap ;;
        mem* N <- scaleH coeff rep ;;
        mem! iaddH M N ;;
        LC_loopH rest' anorm lambdaa lambda_var nu_min nu_max nu_lap M
    end.
  Definition RepRadial_LC_commonH (rlc_op : radial_lc) (anorm lambdaa : R) (lambda_var nu_min nu_max nu_lap : Z) : hm ref :=
    match rlc_op with
    | [] => alloc (zeros (nu_max - nu_min + 1))
    | (coeff, op) :: rest =>
        mem* rep <- RepRadial_Prod_remH op anorm lambdaa lambda_var nu_min nu_max nu_lap ;;
        mem* M <- scaleH coeff rep ;;
        LC_loopH rest anorm lambdaa lambda_var nu_min nu_max nu_lap M
    end.
  (** radial_space.py:2089-2103 [RepRadial_LC]. *)
  Definition RepRadial_LCH (rlc_op : radial_lc) (anorm lambdaa : R) (lambda_var nu_min nu_max nu_lap : Z) : hm ref :=
    mem* M <- RepRadial_LC_commonH rlc_op anorm lambdaa lambda_var nu_min nu_max nu_lap ;;
    mem! forget cleared_by_LC ;;
    hret M.
  (** radial_space.py:2155-2161 [RepRadial_LC_rem]. *)
  Definition RepRadial_LC_remH (rlc_op : radial_lc) (anorm lambdaa : R) (lambda_var nu_min nu_max nu_lap : Z) : hm ref :=
    memo (KLC rlc_op anorm lambdaa lambda_var nu_min nu_max nu_lap)
         (RepRadial_LC_commonH rlc_op anorm lambdaa lambda_var nu_min nu_max nu_lap).

  (** A call of a function that remembers. *)
  Definition recallH (k : key) : hm ref :=
    match k with
    | KElem e l n0 n1 => elemH e l n0 n1
    | KbSDS K T a l R_ n0 n1 => RepRadial_bS_DSH K T a l R_ n0 n1
    | KShfs ops a l sh n0 n1 => RepRadialshfs_ProdH ops a l sh n0 n1
    | KProd ops a l v n0 n1 lap => RepRadial_Prod_remH ops a l v n0 n1 lap
    | KLC ops a l v n0 n1 lap => RepRadial_LC_remH ops a l v n0 n1 lap
    end.

  (** ** Sessions *)

  (** What a user can do with these functions: call [RepRadial_Prod] or
      [RepRadial_LC]; call [RepXspace] (full_operators.py:233-266), of which only
      its calls of [RepRadial_Prod_rem] and [RepRadial_LC_rem] are represented
      (it reads their results and makes new arrays from them,
      full_operators.py:653, 803-824, 1008-1045, 1260-1322), and whether it gets
      to the end, where the tables are cleared; call a function that remembers
      directly; change entries of the [i]th array returned so far. *)
  Inductive event : Type :=
  | CallProd (rbs_op : list rsym) (anorm lambdaa : R) (lambda_var nu_min nu_max nu_lap : Z)
  | CallLC (rlc_op : radial_lc) (anorm lambdaa : R) (lambda_var nu_min nu_max nu_lap : Z)
  | CallXspace (calls : list key) (completed : bool)
  | CallRemembering (k : key)
  | Modify (i : nat) (M : mat R).

  (** The calls made by [RepXspace], up to the first that raises. *)
  Fixpoint insideH (calls : list key) : hm unit :=
    match calls with [] => hret tt | k :: rest => mem! recallH k ;; insideH rest end.
  Definition XspaceH (calls : list key) (completed : bool) : hm unit :=
    mem! insideH calls ;;
    if completed then forget cleared_by_Xspace else hlift (Raise ValueError).

  (** What is seen of an event: the matrix returned, as it is when returned, or
      the exception. *)
  Inductive seen : Type :=
  | Returned (M : mat R)
  | Raised (e : exn)
  | Nothing.

  Definition returning (f : hm ref) (m : mem) (held : list ref) : seen * mem * list ref :=
    match f m with
    | (Ok r, m') => (Returned (content (arrays m') r), m', held ++ [r])
    | (Raise e, m') => (Raised e, m', held)
    end.
  Definition step (e : event) (m : mem) (held : list ref) : seen * mem * list ref :=
    match e with
    | CallProd ops a l v n0 n1 lap => returning (RepRadial_ProdH ops a l v n0 n1 lap) m held
    | CallLC ops a l v n0 n1 lap => returning (RepRadial_LCH ops a l v n0 n1 lap) m held
    | CallXspace calls completed =>
        match XspaceH calls completed m with
        | (Ok _, m') => (Nothing, m', held)
        | (Raise x, m') => (Raised x, m', held)
        end
    | CallRemembering k => returning (recallH k) m held
    | Modify i M =>
        match nth_error held i with
        | Some r => (Nothing, mkMem (put (arrays m) (base r) M) (tab m), held)
        | None => (Nothing, m, held)
        end
    end.
  Fixpoint session (es : list event) (m : mem) (held : list ref) : list seen * mem * list ref :=
    match es with
    | [] => ([], m, held)
    | e :: es' =>
        let '(o, m1, held1) := step e m held in
        let '(os, m2, held2) := session es' m1 held1 in (o :: os, m2, held2)
    end.
End Sharing.
