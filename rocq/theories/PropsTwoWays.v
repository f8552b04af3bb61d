(** C96: functions that compute the same matrix in two ways agree. *)

From Coq Require Import Reals Lra.
From Coq Require Import Lia ZifyBool ZifyNat.
From Verif Require Import PyBase PyFacts Compat Spherical SphericalFacts Matrix FullLabels FullLabelsFacts Operators RadialOps RadialME RadialMEFacts ReducedFacts CG PropsCG PropsHarmonics.
Open Scope Z_scope.

(** ** Model *)

(** internal_operators.py:300-307 [RepSO5_Y_alg]: a SymPy matrix, here the list of its
    rows; an entry is [None] if the expression is not a real number.  Nothing is
    converted to float. *)
Definition RepSO5_Y_alg (CG : Z -> Z -> Z -> Z -> Z -> Z -> Z -> Z -> Z -> res R) (v al L v_min v_max L_min L_max : Z) : res (list (list (option R))) :=
  let* states := lbsSO5r3_rngVvarL v_min v_max L_min (Some L_max) in
  mapM (fun i : label =>
    let '(vf, af, Lf) := i in
    mapM (fun j : label =>
      let '(vi, ai, Li) := j in
      ME_SO5r3 CG vf af Lf v al L vi ai Li) states) states.

(** radial_operators.py:10-28 [RadialOperator.matrix], for the matrix elements [me] of a
    subclass. *)
Definition RadialOperator_matrix (me : Z -> Z -> res R) (subspace : TruncatedRadialSpace) : res (mat R) :=
  let labels := trs_labels subspace in
  let* rows := mapM (fun mu_f => mapM (fun mu_i => me mu_f mu_i) labels) labels in
  Ok (mkMat (zlen rows) (zlen labels) (fun i j => nth (Z.to_nat j) (nth (Z.to_nat i) rows []) 0%R)).

(** radial_operators.py:56-60 [RadialOperator_b2.matrix_element] of an object made
    from the basis [lambdaa]. *)
Definition RadialOperator_b2_matrix_element (lambdaa : R) (mu_f mu_i : Z) : res R := ME_Radial_b2 lambdaa mu_f mu_i.

(** radial_space.py:753-763 [RepRadial_b2_sqrt], by means of the classes. *)
Definition RepRadial_b2_sqrt (Matrix_sqrt : mat R -> res (mat R)) (lambdaa : R) (nu_min nu_max : Z) : res (mat R) :=
  let* basis := RadialBasis_init lambdaa in
  let* subspace := TruncatedRadialSpace_init nu_min nu_max in
  let* Mat_np := RadialOperator_matrix (RadialOperator_b2_matrix_element basis) subspace in
  Matrix_sqrt Mat_np.

(** ** Comprehensions *)

Lemma mapM_after {A B C} (f : A -> res B) (f' : A -> res C) (h : B -> C) l :
  (forall x, In x l -> f' x = let* y := f x in Ok (h y)) -> mapM f' l = let* ys := mapM f l in Ok (map h ys).
Proof.
  induction l as [|x l IH]; intros H; [reflexivity|]. cbn [mapM]. rewrite (H x) by now left. rewrite IH by (intros; apply H; now right).
  destruct (f x); cbn [bind]; [|reflexivity]. destruct (mapM f l); reflexivity.
Qed.
Lemma mapM_over {A B C} (g : A -> B) (f : B -> res C) l : mapM f (map g l) = mapM (fun x => f (g x)) l.
Proof. induction l as [|x l IH]; [reflexivity|]. cbn [map mapM]. now rewrite IH. Qed.
Lemma mapM_size {A B} (f : A -> res B) l r : mapM f l = Ok r -> length r = length l.
Proof.
  revert r. induction l as [|x l IH]; intros r E; cbn [mapM] in E; [injection E as <-; reflexivity|]. destruct (f x); [|discriminate]. cbn [bind] in E.
  destruct (mapM f l) as [bs|]; [|discriminate]. injection E as <-. cbn. now rewrite (IH bs).
Qed.
Lemma mapM_each {A B} (f : A -> res B) l r b : mapM f l = Ok r -> In b r -> exists a, In a l /\ f a = Ok b.
Proof.
  revert r. induction l as [|x l IH]; intros r E I; cbn [mapM] in E; [injection E as <-; destruct I|]. destruct (f x) as [y|] eqn:Ex; [|discriminate]. cbn [bind] in E.
  destruct (mapM f l) as [bs|]; [|discriminate]. injection E as <-. destruct I as [<- | I]; [exists x; split; [now left|exact Ex]|]. destruct (IH bs eq_refl I) as (a & Ia & Ea). exists a. split; [now right|exact Ea].
Qed.
Lemma mapM_ext' {A B} (f g : A -> res B) l : (forall x, In x l -> f x = g x) -> mapM f l = mapM g l.
Proof. induction l as [|x l IH]; intros H; [reflexivity|]. cbn [mapM]. rewrite H by now left. now rewrite IH by (intros; apply H; now right). Qed.

(** ** Harmonics *)

Lemma ME_real CG vf af Lf v al L vi ai Li : ME_SO5r3 CG vf af Lf v al L vi ai Li = let* r := (let* x := ME_SO5r3 CG vf af Lf v al L vi ai Li in to_float x) in Ok (Some r).
Proof.
  unfold ME_SO5r3. destruct (CG _ _ _ _ _ _ _ _ _) as [c|e]; [|reflexivity]. cbn [bind].
  destruct (Z_lt_ge_dec vf 0) as [N|Hf]; [unfold ME_SO5red, require_nonnegint, raise_if; replace (vf <? 0) with true by lia; reflexivity|].
  destruct (Z_lt_ge_dec v 0) as [N|Hv]; [unfold ME_SO5red; rewrite require_nonnegint_ok by lia; unfold require_nonnegint, raise_if; replace (v <? 0) with true by lia; reflexivity|].
  destruct (Z_lt_ge_dec vi 0) as [N|Hi]; [unfold ME_SO5red; rewrite !require_nonnegint_ok by lia; unfold require_nonnegint, raise_if; replace (vi <? 0) with true by lia; reflexivity|].
  destruct (ME_ok vf v vi ltac:(lia) ltac:(lia) ltac:(lia)) as (m & -> & _). reflexivity.
Qed.

(** [RepSO5_Y_alg] raises what [RepSO5_Y_rem] raises, and otherwise holds the same
    matrix: every entry is a real number, and it is that entry. *)
Theorem C96_algebraic : forall CG v al L v_min v_max L_min L_max,
  (forall e, RepSO5_Y_alg CG v al L v_min v_max L_min L_max = Raise e <-> RepSO5_Y CG v al L v_min v_max L_min L_max = Raise e) /\
  forall M, RepSO5_Y CG v al L v_min v_max L_min L_max = Ok M -> exists S, RepSO5_Y_alg CG v al L v_min v_max L_min L_max = Ok S /\
    zlen S = nrows M /\ (forall row, In row S -> zlen row = ncols M) /\
    forall i j, 0 <= i < nrows M -> 0 <= j < ncols M -> nth (Z.to_nat j) (nth (Z.to_nat i) S []) None = Some (ent M i j).
Proof.
  intros CG v al L v_min v_max L_min L_max.
  assert (Q : RepSO5_Y_alg CG v al L v_min v_max L_min L_max = let* states := lbsSO5r3_rngVvarL v_min v_max L_min (Some L_max) in
    let* rows := mapM (fun i : label => let '(vf, af, Lf) := i in mapM (fun j : label => let '(vi, ai, Li) := j in let* x := ME_SO5r3 CG vf af Lf v al L vi ai Li in to_float x) states) states in
    Ok (map (map Some) rows)).
  { unfold RepSO5_Y_alg. destruct (lbsSO5r3_rngVvarL v_min v_max L_min (Some L_max)) as [st|e]; [|reflexivity]. cbn [bind]. apply mapM_after.
    intros [[vf af] Lf] _. apply mapM_after. intros [[vi ai] Li] _. apply ME_real. }
  unfold RepSO5_Y. rewrite Q. destruct (lbsSO5r3_rngVvarL v_min v_max L_min (Some L_max)) as [st|e]; cbn [bind]; [|split; [intros e'; split; intros H; injection H as <-; reflexivity|discriminate]].
  set (f := fun i : label => let '(vf, af, Lf) := i in mapM (fun j : label => let '(vi, ai, Li) := j in let* x := ME_SO5r3 CG vf af Lf v al L vi ai Li in to_float x) st).
  destruct (mapM f st) as [rows|e] eqn:ER; cbn [bind]; [|split; [intros e'; split; intros H; injection H as <-; reflexivity|discriminate]]. split; [intros e; split; discriminate|]. intros M E. injection E as <-.
  assert (RL : forall row, In row rows -> zlen row = zlen st).
  { intros row I. destruct (mapM_each f st rows row ER I) as ([[vf af] Lf] & _ & E). unfold f in E. apply mapM_size in E. unfold zlen. now rewrite E. }
  exists (map (map Some) rows). split; [reflexivity|]. cbn [mat_of_rows nrows ncols ent]. split; [unfold zlen; now rewrite map_length|]. split.
  - intros row I. apply in_map_iff in I. destruct I as (r & <- & I). rewrite <- (RL r I). unfold zlen. now rewrite map_length.
  - intros i j Hi Hj. change (@nil (option R)) with (map (@Some R) []). rewrite map_nth.
    assert (I : In (nth (Z.to_nat i) rows []) rows) by (apply nth_In; unfold zlen in Hi; lia). specialize (RL _ I).
    rewrite (nth_indep _ None (Some 0%R)) by (rewrite map_length; unfold zlen in *; lia). now rewrite map_nth.
Qed.

(** ** Radial operators *)

(** The class gives the matrix that [RepRadial] gives, on every valid range. *)
Theorem C96_radial_class : forall lambdaa nu_min nu_max, 0 <= nu_min <= nu_max ->
  exists subspace, TruncatedRadialSpace_init nu_min nu_max = Ok subspace /\
  (forall e, RadialOperator_matrix (RadialOperator_b2_matrix_element lambdaa) subspace = Raise e <-> RepRadial ME_Radial_b2 lambdaa nu_min nu_max = Raise e) /\
  (forall M, RadialOperator_matrix (RadialOperator_b2_matrix_element lambdaa) subspace = Ok M -> RepRadial ME_Radial_b2 lambdaa nu_min nu_max = Ok M) /\
  (forall M, RepRadial ME_Radial_b2 lambdaa nu_min nu_max = Ok M -> RadialOperator_matrix (RadialOperator_b2_matrix_element lambdaa) subspace = Ok M).
Proof.
  intros lambdaa nu_min nu_max Hn. eexists. split.
  { unfold TruncatedRadialSpace_init. rewrite require_range_ok by lia. reflexivity. }
  assert (Q : RadialOperator_matrix (RadialOperator_b2_matrix_element lambdaa) {| trs_nu_min := nu_min; trs_nu_max := nu_max |} = RepRadial ME_Radial_b2 lambdaa nu_min nu_max).
  { unfold RadialOperator_matrix, RepRadial, build_matrix, trs_labels, lbsRadial. cbn [trs_nu_min trs_nu_max].
    assert (PR : py_range nu_min (nu_max + 1) = map (fun i => nu_min + i) (py_range 0 (nu_max - nu_min + 1))).
    { unfold py_range. rewrite map_map. replace (nu_max - nu_min + 1 - 0) with (nu_max + 1 - nu_min) by lia. apply map_ext. intros; lia. }
    assert (PZ : zlen (py_range nu_min (nu_max + 1)) = nu_max - nu_min + 1) by (unfold py_range, zlen; rewrite map_length, seq_length; lia).
    rewrite PZ, PR, mapM_over.
    rewrite (mapM_ext' _ (fun i => mapM (fun j => ME_Radial_b2 lambdaa (nu_min + i) (nu_min + j)) (py_range 0 (nu_max - nu_min + 1)))) by (intros x _; apply mapM_over).
    destruct (mapM _ _) as [rows|e] eqn:ER; [|reflexivity]. cbn [bind]. apply mapM_size in ER. do 2 f_equal.
    unfold zlen. rewrite ER. unfold py_range. rewrite map_length, seq_length. lia. }
  rewrite Q. repeat split; auto.
Qed.

(** The square root of beta^2 by means of the classes is the one that the
    model of products of radial operators uses. *)
Theorem C96_square_root : forall Gam Matrix_sqrt Matrix_sqrtInv lambdaa nu_min nu_max, 0 <= nu_min <= nu_max ->
  RepRadial_b2_sqrt Matrix_sqrt lambdaa nu_min nu_max = Rep_elem Gam Matrix_sqrt Matrix_sqrtInv M_b2_sqrt lambdaa nu_min nu_max.
Proof.
  intros Gam Msq Minv lambdaa nu_min nu_max Hn. destruct (C96_radial_class lambdaa nu_min nu_max Hn) as (sp & ES & R1 & R2 & R3). unfold RepRadial_b2_sqrt, Rep_elem.
  unfold RadialBasis_init. destruct (Rle_dec lambdaa 0); [reflexivity|]. cbn [bind]. rewrite ES. cbn [bind].
  destruct (RadialOperator_matrix _ sp) as [M|e] eqn:E.
  - now rewrite (R2 M eq_refl).
  - now rewrite (proj1 (R1 e) eq_refl).
Qed.

(** An invalid range, which the functions behind the operators never pass on, is
    refused by the classes only. *)
Theorem C96_invalid_range : forall Matrix_sqrt lambdaa nu_min nu_max, (0 < lambdaa)%R -> ~ 0 <= nu_min <= nu_max ->
  RepRadial_b2_sqrt Matrix_sqrt lambdaa nu_min nu_max = Raise ValueError.
Proof.
  intros Msq lambdaa nu_min nu_max Hl Hn. unfold RepRadial_b2_sqrt, RadialBasis_init. destruct (Rle_dec lambdaa 0); [lra|]. cbn [bind].
  unfold TruncatedRadialSpace_init, require_nonnegint_range, require_nonnegint, raise_if.
  destruct (nu_min <? 0) eqn:A; [reflexivity|]. destruct (nu_max <? 0) eqn:B; [reflexivity|]. cbn [bind]. destruct (nu_max <? nu_min) eqn:C; [|lia]. 
  first [reflexivity | now rewrite C].
Qed.

(** Cases in which matrices are returned: two states of seniorities 0 and 1, and two
    radial states. *)
Example C96_case_algebraic : exists M S,
  RepSO5_Y (CG_at (fun _ => Ok [1%R]) [] cg_init) 0 1 0 0 1 0 2 = Ok M /\ RepSO5_Y_alg (CG_at (fun _ => Ok [1%R]) [] cg_init) 0 1 0 0 1 0 2 = Ok S /\ zlen S = 2.
Proof.
  destruct C51_case as (_ & _ & _ & _ & M & E). destruct (C96_algebraic (CG_at (fun _ => Ok [1%R]) [] cg_init) 0 1 0 0 1 0 2) as (_ & H). destruct (H M E) as (S & ES & EN & _).
  exists M, S. split; [exact E|]. split; [exact ES|]. unfold RepSO5_Y_alg in ES. change (lbsSO5r3_rngVvarL 0 1 0 (Some 2)) with (Ok [(0, 1, 0); (1, 1, 2)]) in ES. cbn [bind] in ES.
  apply mapM_size in ES. unfold zlen. rewrite ES. reflexivity.
Qed.

Example C96_case_radial : exists sp M, TruncatedRadialSpace_init 0 1 = Ok sp /\
  RadialOperator_matrix (RadialOperator_b2_matrix_element (5 / 2)) sp = Ok M /\ nrows M = 2 /\ ent M 0 0 = (5 / 2 + 2 * 0)%R /\ ent M 1 1 = (5 / 2 + 2 * 1)%R.
Proof.
  eexists. eexists. split; [reflexivity|]. unfold RadialOperator_matrix. change (trs_labels _) with [0; 1]. cbn [mapM]. unfold RadialOperator_b2_matrix_element, ME_Radial_b2.
  cbn [Z.eqb Z.sub Z.add Z.opp Z.pos_sub Pos.eqb]. rewrite !math_sqrt_ok by lra. cbn [bind]. split; [reflexivity|]. repeat split.
Qed.

Print Assumptions C96_algebraic.
Print Assumptions C96_radial_class.
Print Assumptions C96_square_root.
Print Assumptions C96_invalid_range.
