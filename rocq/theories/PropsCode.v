(** The drivers with the matrices of the code: the shapes that C40, C41 and C61
    ask of the matrices hold for them. *)

From Coq Require Import Reals Lra.
From Coq Require Import Lia ZifyBool ZifyNat.
From Verif Require Import PyBase PyFacts Compat SphericalSpec Spherical SphericalFacts Matrix FullLabels FullLabelsFacts PropsFullLabels
  Operators FullOps PropsHistory FullSpace FullSpaceFacts PropsFullSpace Settings PropsSettings Display DisplayFacts PropsDriver PropsOscillator RadialOps Spectrum.
Open Scope Z_scope.
Ltac Zify.zify_post_hook ::= Z.div_mod_to_equations.

(** Matrices of the code have the dimension of the space. *)
Lemma code_dimension RP CG s op an lb nu_min nu_max v_min v_max lo hi m N :
  code_matrices RP CG s op an lb nu_min nu_max v_min v_max lo hi = Ok m ->
  dimXspace nu_min nu_max v_min v_max lo hi = Ok N -> nrows m = N /\ ncols m = N.
Proof.
  intros E D.
  assert (H : 0 <= nu_min <= nu_max /\ 0 <= v_min <= v_max /\ 0 <= lo <= opt_L lo hi).
  { unfold dimXspace in D. change (match hi with None => lo | Some l => l end) with (opt_L lo hi) in D.
    destruct (range_cases nu_min nu_max) as [(A1 & W) | (_ & W)]; rewrite W in D; [|discriminate]. cbn [bind] in D.
    destruct (range_cases lo (opt_L lo hi)) as [(A3 & W3) | (_ & W3)]; rewrite W3 in D; [|discriminate]. cbn [bind] in D.
    unfold dimSO5r3_rngVvarL, dimSO5r3_rngVrngL in D.
    destruct (range_cases v_min v_max) as [(A2 & W2) | (_ & W2)]; rewrite W2 in D; [|discriminate]. auto. }
  destruct H as (H1 & H2 & H3).
  destruct (C06_full_labels _ _ _ _ _ _ H1 H2 H3) as (X & EX & _ & _ & _ & ED).
  assert (E' : code_matrices RP CG s op an lb nu_min nu_max v_min v_max lo (Some (opt_L lo hi)) = Ok m) by (destruct hi; exact E).
  assert (D' : dimXspace nu_min nu_max v_min v_max lo (Some (opt_L lo hi)) = Ok N) by (destruct hi; exact D).
  rewrite ED in D'. injection D' as <-.
  destruct (C54_linear RP CG (g_lam_fun s) an lb nu_min nu_max v_min v_max lo (opt_L lo hi) H1 H2 H3 op X EX) as (_ & V).
  destruct (V m E') as (_ & _ & S1 & S2 & _). now split.
Qed.

(** What [np.linalg.eigh] and [np.linalg.inv] owe: the shapes of their results. *)
Definition routine_shapes (eigh : mat R -> res (list R * mat R)) (inv : mat R -> res (mat R)) : Prop :=
  (forall M vals P, nrows M = ncols M -> eigh M = Ok (vals, P) -> zlen vals = nrows M /\ nrows P = nrows M /\ ncols P = nrows M) /\
  (forall M Q, nrows M = ncols M -> inv M = Ok Q -> nrows Q = nrows M /\ ncols Q = nrows M).

(** The hypothesis on shapes of C40, C41 and C61 concerns only the two library
    routines: the matrices of the code always meet it. *)
Theorem C61_code_shapes : forall RP CG eigh inv anorm lambda_base nu_min nu_max v_min v_max,
  routine_shapes eigh inv -> good_shapes (code_matrices RP CG) eigh inv anorm lambda_base nu_min nu_max v_min v_max.
Proof.
  intros RP CG eigh inv an lb nu_min nu_max v_min v_max (H1 & H2). split; [|split; assumption].
  intros s op lo hi m N. apply code_dimension.
Qed.

(** With a Hamiltonian that mixes angular momenta no run that is asked for
    transitions ever succeeds, whatever the radial matrix elements and the
    coefficients in the tables. *)
Theorem C61_code_never_succeeds : forall flt RP CG eigh inv junk ham_op anorm lambda_base nu_min nu_max v_min v_max
  fit_eig fit_rat L_min L_max s L1 L2 x s' o,
  routine_shapes eigh inv -> Op_Tame ham_op = false ->
  L_min <= L1 -> L1 < L2 -> L2 <= L_top L_min L_max -> has_states v_min v_max L1 -> has_states v_min v_max L2 ->
  g_rat_lst s <> [] \/ g_amp_lst s <> [] ->
  ACM_ScaleOrAdapt flt (code_matrices RP CG) eigh inv junk ham_op anorm lambda_base nu_min nu_max v_min v_max
    fit_eig fit_rat L_min L_max s <> (Ok x, s', o).
Proof.
  intros until o. intros RS. intros. eapply C61_never_succeeds; try eassumption. now apply C61_code_shapes.
Qed.

Lemma eigh0_shapes M vals P : nrows M = ncols M -> eigh0 M = Ok (vals, P) -> zlen vals = nrows M /\ nrows P = nrows M /\ ncols P = nrows M.
Proof.
  intros Sq E. unfold eigh0 in E. destruct (ascending_diagonal M) eqn:D; [|discriminate]. injection E as <- <-.
  unfold ascending_diagonal in D. apply andb_prop in D. destruct D as [D0 _].
  split; [unfold diagonal_of; rewrite zlen_map; unfold zlen; rewrite py_range_length; lia|]. now split.
Qed.

Example C61_code_example : routine_shapes eigh0 (fun M => Ok M).
Proof. split; [apply eigh0_shapes|]. intros M Q Sq E. injection E as <-. split; congruence. Qed.

Print Assumptions C61_code_shapes.
Print Assumptions C61_code_never_succeeds.
